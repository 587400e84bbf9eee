(** The fixed-point saturation of pre*: the whole computation and the weights of its automaton. *)
From Coq Require Import List Arith Lia Bool ZArith Permutation.
From Verif Require Import Base BaseFacts Spec SpecFacts PdaModel PdaProof AutModel AutProof PreStarModel PreStarProof PreStarLang
  PostStarModel SolverModel ProductModel ProductProof UtilModel UtilProof ShortSpec ShortModel PostShortProof PreShortModel PreShortProof PreShortLang
  FixSpec FixModel FixChain FixPre1 FixPre2 FixPre3 FixPre4 FixPre5.
Import ListNotations.

(** With two edges on level 0 and no level left out, an edge on level k needs k+2 edges. *)
Lemma levels : forall (ES : list edge) (cr : edge -> nat), (forall e k, In e ES -> cr e = S k -> exists e', In e' ES /\ cr e' = k) ->
  (exists e1 e2, In e1 ES /\ In e2 ES /\ e1 <> e2 /\ cr e1 = 0 /\ cr e2 = 0) ->
  forall k e, In e ES -> cr e = k -> k + 2 <= length ES.
Proof.
  intros ES cr H1 (a & b & Ha & Hb & Nab & Ca & Cb).
  assert (Q : forall k e, In e ES -> cr e = k -> exists L, NoDup L /\ (forall x, In x L -> In x ES /\ cr x <= k) /\ length L = k + 2).
  { induction k as [|k IH]; intros e He Ce.
    - exists [a; b]. ands; auto; [constructor; [intros [H|[]]; congruence|constructor; [intros []|constructor]]|]. intros x [<-|[<-|[]]]; split; auto; lia.
    - destruct (H1 e k He Ce) as (e' & E1 & E2). destruct (IH e' E1 E2) as (L & L1 & L2 & L3). exists (e :: L). ands.
      + constructor; auto. intros K. apply L2 in K. lia.
      + intros x [<-|Hx]; [split; auto; lia|]. destruct (L2 x Hx). split; auto.
      + cbn. lia. }
  intros k e He Ce. destruct (Q k e He Ce) as (L & L1 & L2 & L3). rewrite <- L3. apply NoDup_incl_length; auto. intros x Hx. apply L2; auto.
Qed.

Section FixPre6.
  Variable P : pda.
  Hypothesis WP : wf_pda P.
  Hypothesis LK : lookup_ok P.
  Variable mx : bool.
  Variable A0 : faut.
  Let N := a_size (fa_aut A0).
  Let n := pd_n P.
  Let E0 := map fst (a_edges (fa_aut A0)).
  Hypothesis HnN : n <= N.
  Hypothesis HO : wf_ord (fa_aut A0).
  Hypothesis NI : no_in P (fa_aut A0).
  Hypothesis ND0 : NoDup E0.
  Hypothesis RG0 : forall e, In e E0 -> in_range P (fa_aut A0) e.
  Hypothesis DF : fdefault A0.
  Hypothesis TWO : 2 <= length E0.
  Notation in_rng := (in_range P (fa_aut A0)).
  Notation xst := (fwst xd edge).
  Notation fle := (fle mx).
  Notation cov := (cov mx).
  Notation xbase := (xbase P A0).
  Notation deriv := (kderiv P E0).
  Notation unb := (unb P E0 mx).
  Notation PU := (PU P mx A0).
  Notation fin := (aut_final (fa_aut A0)).

  (** The final state. *)
  Record final (st : xst) : Prop := {
    f_base : xbase st;
    f_der : forall e, In e (xES st) -> exists v, deriv e v;
    f_fin : forall e v, In e (xES st) -> xV st e = Some v -> deriv e v;
    f_bot : forall e, In e (xES st) -> xV st e = None -> PU (xES st) e;
    f_src : forall e, In e (xES st) -> e_src e < n -> added st (e_src e);
    f_acc : forall q, q < n -> fin q -> added st q;
    f_E0 : forall e, In e E0 -> cov st e (Some 0%Z);
    f_pop : forall e rw, added st (e_dst e) -> Rp P e rw -> cov st e (Some rw);
    f_1 : forall e c rw, In c (xES st) -> R1 P e c rw -> cov st e (f_add (Some rw) (xV st c));
    f_2 : forall e c1 c2 rw, In c1 (xES st) -> In c2 (xES st) -> R2 P e c1 c2 rw -> cov st e (f_add (f_add (Some rw) (xV st c1)) (xV st c2)) }.

  Notation loop b fuel st := (fw_loop xd edge sort_edges (x_step_with P mx) b fuel st).
  Definition restart (st : xst) : xst := mk_fw (fw_done st) (fw_limit st) 0 (fw_ws st) (fw_next st) (fw_d st).

  Lemma settled_all : forall st c, fw_ws st = [] -> fw_next st = [] -> In c (xES st) -> settled none st c.
  Proof. intros st c H1 H2 H. unfold settled. rewrite H1, H2. ands; auto. Qed.

  Lemma phase2 : forall st, Fin1 P mx A0 st ->
    (forall fuel, loop true fuel (restart st) = Some None \/ exists st', loop true fuel (restart st) = Some (Some st') /\ final st') /\
    exists bound st', final st' /\ forall fuel, bound <= fuel -> loop true fuel (restart st) = Some (Some st').
  Proof.
    intros st (B & C & K & [(D & W & Nx & V)|(D & R & W & cr & bt & G)]).
    - assert (F : final (restart st)).
      { assert (C' : forall c, In c (xES st) -> settled none st c) by (intros c; apply settled_all; auto). constructor; auto.
        - destruct B; constructor; auto.
        - intros e He. exists (Vz st e). apply V; auto.
        - intros e v He Hv. destruct (V e He) as [V1 V2]. change (xV (restart st) e) with (xV st e) in Hv. assert (v = Vz st e) by congruence. subst v. exact V2.
        - intros e He Hv. destruct (V e He) as [V1 _]. change (xV (restart st) e) with (xV st e) in Hv. congruence.
        - intros e He. apply (cl_add _ _ _ _ _ _ K). apply (cl_C _ _ _ _ _ _ K). apply C'. auto.
        - apply K. - apply K. - apply K.
        - intros e c rw Hc Rr. apply (cl_1b _ _ _ _ _ _ K); auto.
        - intros e c1 c2 rw H1 H2 Rr. apply (cl_2b _ _ _ _ _ _ K); auto. }
      assert (L : forall fuel, loop true fuel (restart st) = Some (Some (restart st))).
      { intros fuel. destruct fuel; cbn; unfold fw_is_done, restart; cbn [fw_done]; rewrite D; reflexivity. }
      split; [intros fuel; right; eauto|]. exists 0, (restart st). auto.
    - set (ES := xES st). set (M := length ES).
      assert (RM : fw_rounds st = M) by (rewrite R, (g_lim _ _ _ _ _ _ _ _ G), (xb_count _ _ _ B); auto).
      assert (LV := levels ES cr (g_lvl _ _ _ _ _ _ _ _ G) (g_two _ _ _ _ _ _ _ _ G)).
      assert (AC : forall e, In e ES -> C e).
      { intros e He. specialize (LV _ e He eq_refl). fold M in LV. destruct (g_new _ _ _ _ _ _ _ _ G e He) as [H|[[_ H]|[[_ H]|[[] _]]]]; auto; lia. }
      assert (M2 : 2 <= M). { destruct (g_two _ _ _ _ _ _ _ _ G) as (a & _ & Ha & _ & _ & Ca & _). specialize (LV _ a Ha Ca). auto. }
      assert (K' : clo P mx A0 none (All ES) st).
      { destruct K as [K1 K2 K3 K4 K5 K6 K7 K8 K9 K10 K11]. constructor; auto.
        - intros c H. apply K1, K2; auto.
        - intros e c rw H. apply (K7 e c rw); auto.
        - intros c p id r ls H. apply (K9 c p id r ls); auto.
        - intros e c1 c2 rw H1 H2. apply (K10 e c1 c2 rw); auto. }
      assert (S_der : forall e, In e ES -> deriv e (Vz st e)) by (intros e He; apply (g_fin _ _ _ _ _ _ _ _ G); auto).
      assert (S_cr : forall e, In e ES -> bt (e_dst e) <= cr e <= M) by (intros e He; rewrite <- RM; apply (g_cr _ _ _ _ _ _ _ _ G); auto).
      assert (S_src : forall e, In e ES -> bt (e_src e) <= S (cr e)).
      { intros e He. destruct (Nat.le_gt_cases n (e_src e)) as [Ln|Ln]; [rewrite (g_bt0 _ _ _ _ _ _ _ _ G); auto; lia|]. apply (g_src _ _ _ _ _ _ _ _ G); auto. left. apply (cl_add _ _ _ _ _ _ K); auto. }
      assert (S_fin : forall q, fin q -> bt q = 0) by (intros q Hq; apply (g_bt0 _ _ _ _ _ _ _ _ G); auto).
      assert (S_ch : forall e, In e ES -> unb e \/ chain_ge P E0 mx ES (Vz st) cr bt e (Vz st e) (cr e) M).
      { intros e He. rewrite <- RM. apply (g_ch _ _ _ _ _ _ _ _ G); auto. }
      assert (I0 : Inv2 P mx A0 ES (Vz st) cr bt (restart st)).
      { split; [|split; [cbn; lia|]].
        - constructor; auto.
          + destruct B; constructor; auto.
          + destruct K'; constructor; auto.
          + intros e He. left. apply (g_fin _ _ _ _ _ _ _ _ G); auto.
          + intros e He. destruct (g_ws _ _ _ _ _ _ _ _ G e He) as [H1 H2]. split; auto. right. unfold hot. fold M. rewrite <- RM. auto.
          + intros e He. destruct (g_next _ _ _ _ _ _ _ _ G e He) as [H1 H2]. split; auto. right. unfold hot. fold M. rewrite <- RM. destruct H2 as [U|(r & L & b & H3 & H4)]; [left; auto|].
            right. exists r, L, b. split; auto. lia.
          + cbn. rewrite <- R. auto.
          + cbn. rewrite (xb_count _ _ _ B). auto.
        - exists (S (length (fw_ws st))). split; [|cbn; lia]. split; cbn [restart fw_rounds]; lia. }
      assert (FF : forall st', Fin2 P mx A0 ES (Vz st) st' -> final st').
      { intros s (F1 & F2 & F3 & F4 & F5).
        assert (CV : forall e w, In e ES -> (~ (fw_ws s = [] /\ fw_next s = []) -> cov s e w)).
        { intros e w He H. destruct F5 as [F5|F5]; [contradiction|]. split; [rewrite F2; auto|]. rewrite F5 by auto. apply fle_None. }
        assert (DD : (fw_ws s = [] /\ fw_next s = []) \/ ~ (fw_ws s = [] /\ fw_next s = [])).
        { destruct (fw_ws s) as [|? ?]; [|right; intros [H _]; discriminate]. destruct (fw_next s) as [|? ?]; [left; auto|right; intros [_ H]; discriminate]. }
        constructor; auto; rewrite ?F2.
        - intros e He. exists (Vz st e). auto.
        - intros e v He Hv. destruct (F4 e He) as [H|[H _]]; [|congruence]. assert (v = Vz st e) by congruence. subst. auto.
        - intros e He Hv. destruct (F4 e He) as [H|[_ H]]; [congruence|]. exact H.
        - intros e He. apply (cl_add _ _ _ _ _ _ F3). exact He.
        - apply F3. - apply F3. - apply F3.
        - intros e c rw Hc Rr. destruct DD as [[D1 D2]|D']; [apply (cl_1b _ _ _ _ _ _ F3); auto; apply settled_all; auto; rewrite F2; auto|].
          apply CV; auto. rewrite <- F2. apply (cl_1a _ _ _ _ _ _ F3 e c rw); auto.
        - intros e c1 c2 rw H1 H2 Rr. destruct DD as [[D1 D2]|D']; [apply (cl_2b _ _ _ _ _ _ F3); auto; apply settled_all; auto; rewrite F2; auto|].
          apply CV; auto. rewrite <- F2. apply (cl_2a _ _ _ _ _ _ F3 e c1 c2 rw); auto. }
      split.
      + intros fuel. destruct (phase2_total P WP LK mx A0 HnN ES (Vz st) cr bt M2 S_der S_cr S_src S_fin S_ch fuel _ I0) as [H|(s & H & Fs)]; eauto.
      + destruct (phase2_ends P WP LK mx A0 HnN ES (Vz st) cr bt M2 S_der S_cr S_src S_fin S_ch _ I0) as (b & s & Fs & H). eauto.
  Qed.

  (** The whole computation ends in a final state. *)
  Theorem pre_fix_run : answers (fun fuel => pre_star_fixed_point P mx fuel A0) (fun A => exists st, final st /\ A = x_aut (fw_d st)).
  Proof.
    destruct (x_init_spec P WP LK mx A0 HnN HO NI ND0 RG0 DF TWO) as (st0 & E & B & W & R & K & G).
    assert (I0 : Inv1 P mx A0 st0).
    { split; auto. split; [rewrite R; lia|]. split; auto. eauto. }
    unfold pre_star_fixed_point. rewrite E. cbn [obind]. split.
    - intros fuel. unfold fw_run. destruct (phase1_total P WP LK mx A0 HnN fuel st0 I0) as [->|(s1 & -> & F1)]; auto. unfold fw_finalize.
      destruct (proj1 (phase2 s1 F1) fuel) as [H|(s2 & H & F2)]; fold (restart s1); rewrite H; auto. right. exists (x_aut (fw_d s2)). split; [reflexivity|]. eauto.
    - destruct (phase1_ends P WP LK mx A0 HnN st0 I0) as (b1 & s1 & F1 & H1). destruct (proj2 (phase2 s1 F1)) as (b2 & s2 & F2 & H2).
      exists (b1 + b2). intros fuel L. unfold fw_run. rewrite H1 by lia. unfold fw_finalize. fold (restart s1). rewrite H2 by lia. discriminate.
  Qed.

  (** *** The weights of the final automaton *)
  Section Lang.
    Variable st : xst.
    Hypothesis FI : final st.
    Let A := x_aut (fw_d st).
    Let EA := aut_edges (fa_aut A).
    Let wt := fun x y z => fa_weight A (mk_edge x y z).
    Let AW := mk_waut (fa_aut A0) [].
    Notation WDest := (WDest P AW).
    Notation Rw := (pda_wrules P).
    Let B := f_base _ FI.

    Lemma fl_lab : forall x, In x E0 -> exists l, e_lab x = Some l.
    Proof. intros x H. destruct (RG0 x H) as (_ & _ & l & H1 & _). eauto. Qed.
    Lemma fl_elab : forall x, In x (xES st) -> exists l, e_lab x = Some l.
    Proof. intros x H. destruct (xb_range _ _ _ B x H) as (_ & _ & l & H1 & _). eauto. Qed.
    Lemma fl_acc : forall f, aut_final (fa_aut A) f <-> fin f.
    Proof. intros f. unfold aut_final, A. rewrite (xb_acc _ _ _ B). tauto. Qed.

    (** Paths with derived weights. *)
    Inductive dpath : nat -> list nat -> Z -> nat -> Prop :=
    | dp_nil : forall q, dpath q [] 0%Z q
    | dp_cons : forall e l w v v' f, e_lab e = Some l -> deriv e v -> dpath (e_dst e) w v' f -> dpath (e_src e) (l :: w) (v + v')%Z f.
    Lemma dp_outer : forall q w v f, dpath q w v f -> n <= q -> v = 0%Z /\ n <= f /\ apath (aut_edges (fa_aut A0)) q w f.
    Proof.
      intros q w v f H. induction H as [q|e l w v v' f El D Hp IH]; intros L; [ands; auto; constructor|].
      destruct (deriv_sound P WP AW HnN NI e v D fl_lab) as (l' & E1 & _ & E3). destruct (E3 L) as [J1 ->]. cbn in J1. destruct e as [a x c]. cbn [e_src e_dst e_lab] in *. subst x.
      destruct IH as (-> & I2 & I3); [apply (NI a (Some l) c); exact J1|]. ands; auto. eapply ap_lab; [exact J1|auto].
    Qed.
    Lemma dp_dest : forall p w v f, dpath p w v f -> p < n -> WDest f (p, w) v.
    Proof.
      intros p w v f H. induction H as [p|e l w v v' f El D Hp IH]; intros L.
      - unfold PreShortLang.WDest. apply Nat.ltb_lt in L. fold n. rewrite L. constructor.
      - destruct (deriv_sound P WP AW HnN NI e v D fl_lab) as (l' & E1 & E2 & _). specialize (E2 L). assert (l' = l) by congruence. subst l'.
        apply (WDest_app P AW HnN (e_dst e) f (e_src e, [l]) v v' w E2); auto. intros L1. apply (dp_outer _ _ _ _ Hp); auto.
    Qed.
    Lemma dp_run : forall p w v f, dpath p w v f -> p < n -> fin f -> run_weight Rw (eq (p, w)) (aut_lang n (fa_aut A0)) v.
    Proof.
      intros p w v f Hd Hp Hf. assert (D := dp_dest _ _ _ _ Hd Hp). unfold PreShortLang.WDest in D. exists (p, w). fold n in D. destruct (Nat.ltb_spec f n) as [L|L].
      - exists (f, []). ands; auto. split; auto. exists f. split; auto. constructor.
      - destruct D as (p' & w' & D1 & D2 & D3). exists (p', w'). ands; auto. split; auto. exists f. split; auto.
    Qed.

    (** Paths as lists of edges. *)
    Definition word (l : list edge) (w : list nat) : Prop := map e_lab l = map Some w.
    Lemma ep_weight : forall q l f, epath (xES st) q l f -> forall w, word l w -> exists v, dpath q w v f.
    Proof.
      intros q l f H. induction H as [q|x l f Hx Hp IH]; intros w Hw; destruct w as [|a w]; try discriminate; [exists 0%Z; constructor|].
      unfold word in Hw. cbn in Hw. injection Hw as H1 H2. destruct (IH w H2) as [v Hv]. destruct (f_der _ FI x Hx) as [u Hu]. exists (u + v)%Z. econstructor; eauto.
    Qed.
    Lemma ep_unb : forall q l f, epath (xES st) q l f -> forall w, word l w -> forall x, In x l -> unb x -> forall b, exists v, dpath q w v f /\ (sg mx v < b)%Z.
    Proof.
      intros q l f H. induction H as [q|y l f Hy Hp IH]; intros w Hw x Hx U b; destruct w as [|a w]; try discriminate; [destruct Hx|].
      unfold word in Hw. cbn in Hw. injection Hw as H1 H2. destruct Hx as [<-|Hx].
      - destruct (ep_weight _ _ _ Hp w H2) as [v Hv]. destruct (U (b - sg mx v)%Z) as (u & Hu & Lu). exists (u + v)%Z. split; [econstructor; eauto|]. rewrite sg_add. lia.
      - destruct (f_der _ FI y Hy) as [u Hu]. destruct (IH w H2 x Hx U (b - sg mx u)%Z) as (v & Hv & Lv). exists (u + v)%Z. split; [econstructor; eauto|]. rewrite sg_add. lia.
    Qed.
    Lemma ip_ep : forall q w v f, ipath EA wt q w v f -> exists l, epath (xES st) q l f /\ word l w.
    Proof.
      intros q w v f H. induction H as [q|q l q1 w v f He Hp IH]; [exists []; split; [constructor|reflexivity]|].
      destruct IH as (l' & I1 & I2). destruct (fl_elab _ He) as [x Ex]. cbn in Ex. subst l. exists (mk_edge q (Some x) q1 :: l'). split.
      - apply (ep_cons _ (mk_edge q (Some x) q1)); auto.
      - unfold word in *. cbn. rewrite I2. reflexivity.
    Qed.
    Lemma ip_fin : forall q w v f, ipath EA wt q w v f -> forall z, v = Some z -> dpath q w z f.
    Proof.
      intros q w v f H. induction H as [q|q l q1 w v f He Hp IH]; intros z Hz; [injection Hz as <-; constructor|].
      destruct (fl_elab _ He) as [x Ex]. cbn in Ex. subst l. unfold iplus in Hz. destruct (wt q (Some x) q1) as [a|] eqn:Ea; [|discriminate]. destruct v as [b|]; [|discriminate]. injection Hz as <-.
      apply (dp_cons (mk_edge q (Some x) q1)); auto. apply (f_fin _ FI); auto.
    Qed.
    Lemma ip_bot : forall q w v f, ipath EA wt q w v f -> v = None -> fin f -> exists l x, epath (xES st) q l f /\ word l w /\ In x l /\ unb x.
    Proof.
      intros q w v f H. induction H as [q|q l q1 w v f He Hp IH]; intros Hv Hf; [discriminate|].
      destruct (fl_elab _ He) as [x Ex]. cbn in Ex. subst l.
      assert (CONS : forall l', epath (xES st) q1 l' f -> word l' w -> epath (xES st) q (mk_edge q (Some x) q1 :: l') f /\ word (mk_edge q (Some x) q1 :: l') (x :: w)).
      { intros l' K1 K2. split; [apply (ep_cons _ (mk_edge q (Some x) q1)); auto|]. unfold word in *. cbn. rewrite K2. reflexivity. }
      destruct v as [b|].
      - unfold iplus in Hv. destruct (wt q (Some x) q1) as [a|] eqn:Ea; [discriminate|]. destruct (ip_ep _ _ _ _ Hp) as (l' & I1 & I2). destruct (CONS l' I1 I2) as [J1 J2].
        destruct (f_bot _ FI _ He Ea l' f I1 Hf) as (y & Y1 & Y2). exists (mk_edge q (Some x) q1 :: l'), y. auto.
      - destruct (IH eq_refl Hf) as (l' & y & I1 & I2 & I3 & I4). destruct (CONS l' I1 I2) as [J1 J2]. exists (mk_edge q (Some x) q1 :: l'), y. ands; auto. right; auto.
    Qed.

    Theorem fl_sound : forall p w v f, p < n -> ipath EA wt p w (Some v) f -> aut_final (fa_aut A) f -> run_weight Rw (eq (p, w)) (aut_lang n (fa_aut A0)) v.
    Proof. intros p w v f Hp Hi Hf. apply fl_acc in Hf. eapply dp_run; eauto. eapply ip_fin; eauto. Qed.
    Lemma sg_better : forall a b, (sg mx a < sg mx b)%Z -> better mx a b.
    Proof. intros a b. unfold better, sg. destruct mx; lia. Qed.
    Theorem fl_bottom : forall p w f, p < n -> ipath EA wt p w None f -> aut_final (fa_aut A) f -> unbounded mx Rw (eq (p, w)) (aut_lang n (fa_aut A0)).
    Proof.
      intros p w f Hp Hi Hf. apply fl_acc in Hf. destruct (ip_bot _ _ _ _ Hi eq_refl Hf) as (l & x & I1 & I2 & I3 & I4). intros b.
      destruct (ep_unb _ _ _ I1 w I2 x I3 I4 (sg mx b)) as (v & V1 & V2). exists v. split; [eapply dp_run; eauto|]. apply sg_better; auto.
    Qed.

    (** Completeness. *)
    Lemma iplus_f : forall a b, iplus a b = f_add a b.
    Proof. reflexivity. Qed.
    Lemma f_add_assoc : forall a b c, f_add (f_add a b) c = f_add a (f_add b c).
    Proof. intros [a|] [b|] [c|]; cbn; auto. rewrite Z.add_assoc. auto. Qed.
    Lemma fl_step : forall c c' sr rw, Rw sr rw -> step_by sr c c' -> forall f v, fst c' < n -> ipath EA wt (fst c') (snd c') v f -> fin f ->
      fst c < n /\ exists v', ipath EA wt (fst c) (snd c) v' f /\ fle v' (f_add (Some rw) v).
    Proof.
      intros c c' sr rw HR HS f v Hn Hp Hf. inversion HS as [w Ec Ec']; subst c c'. cbn [fst snd] in *.
      apply pda_wrules_at in HR. destruct HR as (r & ls & Hin & Hm & Eto & Eop & ->).
      assert (Hp0 := In_rules_lt _ _ _ Hin). destruct (In_nth_error _ _ Hin) as [id Hid]. split; auto.
      assert (G : get_rule P (s_from sr) id = Some (r, ls)) by (apply get_rule_at; auto).
      assert (CONS : forall q v1 v2, cov st (mk_edge (s_from sr) (Some (s_pre sr)) q) v1 -> ipath EA wt q w v2 f ->
        exists v', ipath EA wt (s_from sr) (s_pre sr :: w) v' f /\ fle v' (f_add v1 v2)).
      { intros q v1 v2 [K1 K2] Hw. exists (iplus (wt (s_from sr) (Some (s_pre sr)) q) v2). split; [apply (ip_cons _ _ (s_from sr) (Some (s_pre sr)) q w v2 f); auto|].
        rewrite iplus_f. apply fle_add; [exact K2|apply fle_refl]. }
      assert (INV : forall q l u v, ipath EA wt q (l :: u) v f -> exists c v2, EA q (Some l) c /\ ipath EA wt c u v2 f /\ v = f_add (wt q (Some l) c) v2).
      { intros q l u v0 H. inversion H as [|q0 l0 c0 w0 v2 q2 H1 H2 E1 E2 E3 E4]; subst.
        destruct (fl_elab _ H1) as [x Ex]. cbn in Ex. subst l0. injection E2 as -> ->. exists c0, v2. ands; auto. }
      rewrite Eop in Hp. unfold sop_of in Hp. destruct (r_op r) eqn:Er; cbn [apply_op] in Hp.
      - destruct (INV _ _ _ _ Hp) as (s & v1 & H1 & H2 & ->). destruct (INV _ _ _ _ H2) as (q & v2 & H3 & H4 & ->).
        assert (K : R2 P (mk_edge (s_from sr) (Some (s_pre sr)) q) (mk_edge (s_to sr) (Some (r_opl r)) s) (mk_edge s (Some (s_pre sr)) q) (r_w r)).
        { exists (s_from sr), id, r, ls, (s_pre sr). cbn. ands; auto. }
        destruct (CONS q _ v2 (f_2 _ FI _ _ _ _ H1 H3 K) H4) as (v' & J1 & J2). exists v'. split; auto. rewrite !f_add_assoc in J2. exact J2.
      - inversion Hp as [q0 E1 E2 E3|q0 l0 c0 w0 v2 q2 H1 H2 E1 E2 E3 E4].
        + subst. assert (K : Rp P (mk_edge (s_from sr) (Some (s_pre sr)) (s_to sr)) (r_w r)) by (exists (s_from sr), id, r, ls, (s_pre sr); ands; auto; rewrite Eto; auto).
          destruct (CONS (s_to sr) (Some (r_w r)) (Some 0%Z)) as (v' & J1 & J2); [apply (f_pop _ FI); auto; cbn; apply (f_acc _ FI); auto|constructor|]. exists v'. auto.
        + assert (K : Rp P (mk_edge (s_from sr) (Some (s_pre sr)) (s_to sr)) (r_w r)) by (exists (s_from sr), id, r, ls, (s_pre sr); ands; auto; rewrite Eto; auto).
          destruct (CONS (s_to sr) (Some (r_w r)) v) as (v' & J1 & J2); [|auto|].
          * apply (f_pop _ FI); auto. cbn [e_dst]. apply (f_src _ FI _ H1). cbn. auto.
          * rewrite E2, E3. exists v'. auto.
      - destruct (INV _ _ _ _ Hp) as (s & v1 & H1 & H2 & ->).
        assert (K : R1 P (mk_edge (s_from sr) (Some (s_pre sr)) s) (mk_edge (s_to sr) (Some (r_opl r)) s) (r_w r)) by (exists (s_from sr), id, r, ls, (s_pre sr); cbn; ands; auto).
        destruct (CONS s _ v1 (f_1 _ FI _ _ _ H1 K) H2) as (v' & J1 & J2). exists v'. split; auto. rewrite !f_add_assoc in J2. exact J2.
      - destruct (INV _ _ _ _ Hp) as (s & v1 & H1 & H2 & ->).
        assert (K : R1 P (mk_edge (s_from sr) (Some (s_pre sr)) s) (mk_edge (s_to sr) (Some (s_pre sr)) s) (r_w r)) by (exists (s_from sr), id, r, ls, (s_pre sr); cbn; ands; auto).
        destruct (CONS s _ v1 (f_1 _ FI _ _ _ H1 K) H2) as (v' & J1 & J2). exists v'. split; auto. rewrite !f_add_assoc in J2. exact J2.
    Qed.
    Lemma fl_init : forall q w f, apath (aut_edges (fa_aut A0)) q w f -> exists v, ipath EA wt q w v f /\ fle v (Some 0%Z).
    Proof.
      intros q w f H. induction H as [q|q l q1 w f He Hp IH|q q1 w f He Hp IH]; [exists (Some 0%Z); split; [constructor|apply fle_refl]|..];
        destruct IH as (v & I1 & I2); destruct (f_E0 _ FI _ He) as [K1 K2].
      - exists (iplus (wt q (Some l) q1) v). split; [apply (ip_cons _ _ q (Some l) q1 w v f); auto|]. change (Some 0%Z) with (f_add (Some 0%Z) (Some 0%Z)). apply fle_add; auto.
      - exists (iplus (wt q None q1) v). split; [apply (ip_cons _ _ q None q1 w v f); auto|]. change (Some 0%Z) with (f_add (Some 0%Z) (Some 0%Z)). apply fle_add; auto.
    Qed.
    Theorem fl_complete : forall p w v, run_weight Rw (eq (p, w)) (aut_lang n (fa_aut A0)) v ->
      exists f v', ipath EA wt p w v' f /\ aut_final (fa_aut A) f /\ as_good mx v' v.
    Proof.
      intros p w v (c1 & c2 & <- & [Hn (f & Hp & Hf)] & HR).
      assert (K : forall c v c2, wreach Rw c v c2 -> fst c2 < n -> apath (aut_edges (fa_aut A0)) (fst c2) (snd c2) f -> fst c < n /\ exists v', ipath EA wt (fst c) (snd c) v' f /\ fle v' (Some v)).
      { clear HR Hn Hp. intros c v0 c2' HR. induction HR as [c|c r rw c' v0 c3 Hr Hs HR IH]; intros Hn Hp.
        - split; auto. apply fl_init; auto.
        - destruct (IH Hn Hp) as (I1 & v' & I2 & I3). destruct (fl_step _ _ _ _ Hr Hs f v' I1 I2 Hf) as (J1 & v2 & J2 & J3). split; auto. exists v2. split; auto.
          eapply fle_trans; [exact J3|]. change (Some (rw + v0)%Z) with (f_add (Some rw) (Some v0)). apply fle_add; auto using fle_refl. }
      destruct (K _ _ _ HR Hn Hp) as (_ & v' & K1 & K2). exists f, v'. ands; auto; [apply fl_acc; auto|]. apply fle_spec in K2. destruct v' as [z|]; cbn; auto. unfold sg in K2. destruct mx; cbn in *; lia.
    Qed.

    (** When the weights can be improved for ever some accepting path has an infinite weight: there are finitely many edges. *)
    Lemma fl_low : exists K, (0 <= K)%Z /\ forall e z, In e (xES st) -> xV st e = Some z -> (- K <= sg mx z)%Z.
    Proof.
      generalize (xES st). induction l as [|e l IH]; [exists 0%Z; split; [lia|intros e z []]|]. destruct IH as (K & K0 & K1).
      exists (K + match xV st e with Some z => Z.abs z | None => 0 end)%Z. split; [destruct (xV st e); lia|].
      intros x z [<-|Hx] Hz; [rewrite Hz; unfold sg; destruct mx; lia|]. specialize (K1 x z Hx Hz). destruct (xV st e); lia.
    Qed.
    Lemma fl_lowpath : forall K, (0 <= K)%Z -> (forall e z, In e (xES st) -> xV st e = Some z -> (- K <= sg mx z)%Z) ->
      forall q w v f, ipath EA wt q w v f -> forall z, v = Some z -> (- (K * Z.of_nat (length w)) <= sg mx z)%Z.
    Proof.
      intros K K0 K1 q w v f H. induction H as [q|q l q1 w v f He Hp IH]; intros z Hz; [injection Hz as <-; rewrite sg_0; cbn; lia|].
      destruct (fl_elab _ He) as [x Ex]. cbn in Ex. subst l. unfold iplus in Hz. destruct (wt q (Some x) q1) as [a|] eqn:Ea; [|discriminate]. destruct v as [b|]; [|discriminate]. injection Hz as <-.
      specialize (IH b eq_refl). specialize (K1 _ _ He Ea). rewrite sg_add. cbn [length]. rewrite Nat2Z.inj_succ. lia.
    Qed.
    Theorem fl_unbounded : forall p w, unbounded mx Rw (eq (p, w)) (aut_lang n (fa_aut A0)) -> exists f, ipath EA wt p w None f /\ aut_final (fa_aut A) f.
    Proof.
      intros p w U. destruct fl_low as (K & K0 & K1). destruct (U (sg mx (- (K * Z.of_nat (length w)))))%Z as (v & Hv & Lv).
      destruct (fl_complete p w v Hv) as (f & v' & H1 & H2 & H3). destruct v' as [z|]; [|eauto]. exfalso.
      assert (Q := fl_lowpath K K0 K1 _ _ _ _ H1 z eq_refl). unfold better, as_good, sg in *. destruct mx; lia.
    Qed.
  End Lang.
End FixPre6.
