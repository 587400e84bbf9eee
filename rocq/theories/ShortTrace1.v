(** The annotations of the edges that the shortest post* adds: every annotation names older edges, and the weight of the edge is not below
    what the annotation derives. *)
From Coq Require Import List Arith Lia Bool ZArith Permutation.
From Verif Require Import Base BaseFacts Spec SpecFacts PdaModel PdaProof AutModel AutProof PreStarModel PreStarProof PreStarLang
  PostStarModel PostStarProof PostStarLang SolverModel QueryModel QueryProof ProductModel ProductProof UtilModel UtilProof ShortSpec ShortModel PostShortProof FixSolveProof.
Import ListNotations.

(** [e] with annotation [tr] and weight at least ... [v] is derived from the edges [older] with weights [W]. *)
Definition sjust (P : pda) (qp : nat * nat -> option nat) (W : edge -> Z) (older : list (edge * trace)) (e : edge) (tr : trace) (v : Z) : Prop :=
  (exists p id l r ls q, tr = TPost p id l /\ get_rule P p id = Some (r, ls) /\ matches (pd_nlab P) ls l /\ edges_of older p (Some l) q /\
     match r_op r with
     | POP => e = mk_edge (r_to r) None q /\ (W (mk_edge p (Some l) q) + r_w r <= v)%Z
     | SWAP => e = mk_edge (r_to r) (Some (r_opl r)) q /\ (W (mk_edge p (Some l) q) + r_w r <= v)%Z
     | NOOP => e = mk_edge (r_to r) (Some l) q /\ (W (mk_edge p (Some l) q) + r_w r <= v)%Z
     | PUSH => exists qn, qp (r_to r, r_opl r) = Some qn /\
         (e = mk_edge (r_to r) (Some (r_opl r)) qn /\ (0 <= v)%Z \/
          e = mk_edge qn (Some l) q /\ (W (mk_edge p (Some l) q) + r_w r <= v)%Z)
     end) \/
  (exists s l, tr = TEps s /\ e_lab e = Some l /\ edges_of older (e_src e) None s /\ edges_of older s (Some l) (e_dst e) /\
     (W (mk_edge (e_src e) None s) + W (mk_edge s (Some l) (e_dst e)) <= v)%Z).

Inductive wjs (P : pda) (qp : nat * nat -> option nat) (W : edge -> Z) (base : list (edge * trace)) : list (edge * trace) -> Prop :=
| wjs_base : wjs P qp W base base
| wjs_cons : forall older e tr, wjs P qp W base older -> sjust P qp W older e tr (W e) -> wjs P qp W base ((e, tr) :: older).

Lemma sjust_ext : forall P qp W W' older new e tr v v', sjust P qp W older e tr v -> (forall x, In x (map fst older) -> W' x = W x) -> (v <= v')%Z -> sjust P qp W' (new ++ older) e tr v'.
Proof.
  intros P qp W W' older new e tr v v' H HW L. destruct H as [H|H]; [left|right].
  - destruct H as (p & id & l & r & ls & q & H1 & H2 & H3 & H4 & H5). exists p, id, l, r, ls, q. ands; auto using edges_of_app. rewrite (HW _ H4).
    destruct (r_op r); try (destruct H5 as [-> H5]; split; auto; lia). destruct H5 as (qn & H5 & H6). exists qn. split; auto. destruct H6 as [[H6 H7]|[H6 H7]]; [left|right]; split; auto; lia.
  - destruct H as (s & l & H1 & H2 & H3 & H4 & H5). exists s, l. rewrite (HW _ H3), (HW _ H4). ands; auto using edges_of_app. lia.
Qed.
Lemma wjs_incl : forall P qp W b es e, wjs P qp W b es -> In e (map fst b) -> In e (map fst es).
Proof. intros P qp W b es e H; induction H; auto. intros; right; auto. Qed.
Lemma wjs_ext : forall P qp W W' b es, wjs P qp W b es -> (forall x, In x (map fst es) -> W' x = W x) -> wjs P qp W' b es.
Proof.
  intros P qp W W' b es H. induction H as [|older e tr H IH HJ]; intros HW; [constructor|]. constructor.
  - apply IH. intros x Hx. apply HW. right; auto.
  - rewrite (HW e) by (left; auto). apply (sjust_ext P qp W W' older [] e tr (W e) (W e)); auto; [|lia]. intros x Hx. apply HW. right; auto.
Qed.

Section Inv.
  Variable P : pda.
  Hypothesis WP : wf_pda P.
  Variable X : Type.
  Variable et : option (waut -> X -> edge -> trace -> Z -> Z -> option (bool * X)).
  Variable ptop : nat -> list (Z * (edge * trace)) -> nat.
  Hypothesis PT : forall k l, l <> [] -> exists x, nth_error l (ptop k l) = Some x /\ forall y, In y l -> (fst x <= fst y)%Z.
  Variable A0 : waut.
  Hypothesis OK : post_ok P (wa_aut A0).
  Hypothesis NN : forall p id r ls, get_rule P p id = Some (r, ls) -> (0 <= r_w r)%Z.
  Notation n := (pd_n P).
  Notation nQ := (a_size (wa_aut A0)).
  Notation M := (snd (qp_init P (wa_aut A0))).
  Notation qp := (fun k : nat * nat => qp_find k M).
  Notation E0 := (a_edges (wa_aut A0)).
  Notation st_t := (ps_st X).
  Notation edges st := (a_edges (wa_aut (h_aut st))).
  Notation W st := (w_of (h_aut st)).
  Notation ew := (ew X).
  Notation kst := (kst P X A0).
  Notation kcl := (kcl P X A0).
  Notation kle := (kle X).
  Notation inA := (inA X).

  Definition qjust (st : st_t) (w : Z) (e : edge) (t : trace) : Prop :=
    In e (map fst E0) \/ exists v, sjust P qp (W st) (edges st) e t v /\ forall b d, ew st e = Some (b, d) -> d = w -> (v <= b)%Z.
  Definition tinv (st : st_t) : Prop := wjs P qp (W st) E0 (edges st) /\ forall w e t, In (w, (e, t)) (h_ws st) -> qjust st w e t.

  Lemma tinv_same : forall st st', tinv st -> h_aut st' = h_aut st -> (forall x, In x (h_ws st') -> In x (h_ws st)) -> (forall e, ew st' e = ew st e) -> tinv st'.
  Proof.
    intros st st' [H1 H2] Ea Ew Ee. split; [rewrite Ea; auto|]. intros w e t H. destruct (H2 _ _ _ (Ew _ H)) as [K|(v & K1 & K2)]; [left; auto|].
    right. exists v. rewrite Ea, Ee. auto.
  Qed.
  Lemma tinv_push : forall D st st' e tr v b ww, kst D st -> tinv st -> sjust P qp (W st) (edges st) e tr v -> h_aut st' = h_aut st -> h_ws st' = h_ws st ++ [(ww, (e, tr))] ->
    (forall e', e' <> e -> ew st' e' = ew st e') -> ew st' e = Some (b, ww) -> (v <= b)%Z -> (forall b0 d0, ew st e = Some (b0, d0) -> (ww < d0)%Z) -> tinv st'.
  Proof.
    intros D st st' e tr v b ww K [H1 H2] J Ea Ew Eo Ee L Hd. split; [rewrite Ea; auto|]. intros w e' t H. rewrite Ew in H. apply in_app_or in H. destruct H as [H|[H|[]]].
    - destruct (H2 _ _ _ H) as [K1|(v' & K1 & K2)]; [left; auto|]. right. exists v'. rewrite Ea. split; auto. intros b0 d0 E Hw. destruct (edge_eq_dec e' e) as [->|Hne]; [|rewrite Eo in E; eauto].
      exfalso. rewrite Ee in E. injection E as <- <-. destruct (k_ws _ _ _ _ _ K _ _ _ H) as (_ & _ & b1 & d1 & E1 & L1). specialize (Hd _ _ E1). lia.
    - injection H as <- <- <-. right. exists v. rewrite Ea. split; auto. intros b0 d0 E _. rewrite Ee in E. injection E as <- <-. auto.
  Qed.

  Lemma update_ww : forall D st e v, kst D st -> forall ww, (if Nat.ltb (e_dst e) (h_nQ st) then Some v else mo <- h_minpath X st (e_dst e) ;; m <- mo ;; Some (m + v)%Z) = Some ww ->
    exists m, mp X A0 st (e_dst e) = Some m /\ ww = (m + v)%Z.
  Proof.
    intros D st e v K ww H. rewrite (k_nQ _ _ _ _ _ K) in H. unfold mp. destruct (Nat.ltb_spec (e_dst e) nQ) as [L|L].
    - injection H as <-. exists 0%Z. auto.
    - unfold h_minpath in H. rewrite (k_nQ _ _ _ _ _ K) in H. apply Nat.leb_le in L. rewrite L in H. destruct (nth_error (h_min st) (e_dst e - nQ)) as [[m|]|]; cbn in H; try discriminate.
      injection H as <-. exists m. auto.
  Qed.

  Lemma ew_set : forall (st : st_t) e v e', ew (h_set_ew X st e v) e' = if edge_eq_dec e e' then Some v else ew st e'.
  Proof. intros. unfold PostShortProof.ew, h_set_ew. cbn [h_ew]. rewrite w_find_cons. auto. Qed.

  Lemma update_tinv : forall D st st' e tr v, kst D st -> tinv st -> sjust P qp (W st) (edges st) e tr v -> h_update X st e v tr = Some st' -> tinv st'.
  Proof.
    intros D st st' e tr v K T J E. unfold h_update in E. destruct (if Nat.ltb (e_dst e) (h_nQ st) then _ else _) as [ww|] eqn:Eww; [cbn [obind] in E|discriminate].
    destruct (update_ww D st e v K ww Eww) as (m & Hm & ->). clear Eww. unfold h_update_ in E. fold (ew st e) in E. destruct (ew st e) as [[b d]|] eqn:Ee; cbn [fst snd] in E.
    - destruct (k_pot _ _ _ _ _ K _ _ _ Ee) as (m0 & Hm0 & ->). rewrite Hm in Hm0. injection Hm0 as <-. destruct (Z.ltb_spec (m + v) (m + b)) as [L|L].
      + assert (L1 : Z.ltb v b = true) by (apply Z.ltb_lt; lia). rewrite L1 in E. injection E as <-.
        apply (tinv_push D st _ e tr v v (m + v)%Z K T J); auto; try lia.
        * intros e' Hne. unfold h_push. change (ew (h_set_ew X st e (v, (m + v)%Z)) e' = ew st e'). rewrite ew_set. destruct (edge_eq_dec e e'); congruence.
        * change (ew (h_set_ew X st e (v, (m + v)%Z)) e = Some (v, (m + v)%Z)). rewrite ew_set. destruct (edge_eq_dec e e); congruence.
        * intros b0 d0 E0'. rewrite Ee in E0'. injection E0' as <- <-. lia.
      + assert (L1 : Z.ltb v b = false) by (apply Z.ltb_ge; lia). rewrite L1 in E. injection E as <-. apply (tinv_same st); auto.
        intros e'. rewrite ew_set. destruct (edge_eq_dec e e') as [<-|]; auto.
    - injection E as <-. apply (tinv_push D st _ e tr v v (m + v)%Z K T J); auto; try lia.
      + intros e' Hne. change (ew (h_set_ew X st e (v, (m + v)%Z)) e' = ew st e'). rewrite ew_set. destruct (edge_eq_dec e e'); congruence.
      + change (ew (h_set_ew X st e (v, (m + v)%Z)) e = Some (v, (m + v)%Z)). rewrite ew_set. destruct (edge_eq_dec e e); congruence.
      + intros b0 d0 E0'. rewrite Ee in E0'. discriminate.
  Qed.

  Lemma push_tinv : forall D st p g q wd tr mo, kst D st -> tinv st -> qp (p, g) = Some q -> h_minpath X st q = Some mo ->
    let e1 := mk_edge p (Some g) q in sjust P qp (W st) (edges st) e1 tr 0%Z ->
    let sf := h_update_ X st e1 0%Z wd in
    tinv (if (match mo with None => true | Some m => Z.ltb wd m end)
          then let st1 := h_set_min X (fst sf) (q - h_nQ st) wd in if snd (snd sf) then h_push X st1 wd e1 tr else st1
          else fst sf).
  Proof.
    intros D st p g q wd tr mo K T Hq Hmo e1 J sf. assert (E1 := k_e1 _ _ _ _ _ K p g q Hq). fold e1 in E1.
    assert (EM : mp X A0 st q = mo).
    { unfold h_minpath in Hmo. rewrite (k_nQ _ _ _ _ _ K) in Hmo. unfold mp. destruct (Nat.leb_spec nQ q) as [L|L]; [|discriminate]. destruct (Nat.ltb_spec q nQ); [lia|]. rewrite Hmo. destruct mo; auto. }
    rewrite EM in E1. unfold sf, h_update_. fold (ew st e1).
    assert (PU : forall i, (forall b0 d0, ew st e1 = Some (b0, d0) -> (wd < d0)%Z) -> tinv (h_push X (h_set_min X (h_set_ew X st e1 (0%Z, wd)) i wd) wd e1 tr)).
    { intros i Hd. apply (tinv_push D st _ e1 tr 0%Z 0%Z wd K T J); auto; try lia.
      - intros e' Hne. change (ew (h_set_ew X st e1 (0%Z, wd)) e' = ew st e'). rewrite ew_set. destruct (edge_eq_dec e1 e'); congruence.
      - change (ew (h_set_ew X st e1 (0%Z, wd)) e1 = Some (0%Z, wd)). rewrite ew_set. destruct (edge_eq_dec e1 e1); congruence. }
    destruct (ew st e1) as [[b d]|] eqn:Ee; cbn [fst snd].
    - destruct E1 as [-> ->]. destruct (Z.ltb_spec wd d) as [L|L]; cbn [fst snd Z.ltb].
      + apply PU. intros b0 d0 H. injection H as <- <-. auto.
      + apply (tinv_same st); auto. intros e'. rewrite ew_set. destruct (edge_eq_dec e1 e') as [<-|]; auto.
    - subst mo. apply PU. discriminate.
  Qed.

  (** An iteration over the rules. *)
  Lemma rule_tinv : forall D st st' t l wt id r ls, kst D st -> tinv st -> inA st t -> e_src t < n -> e_lab t = Some l -> ew st t = Some (wt, D) ->
    get_rule P (e_src t) id = Some (r, ls) -> h_rule X t l wt D st (id, (r, ls)) = Some st' -> tinv st'.
  Proof.
    intros D st st' t l wt id r ls K T Hin Hs Hl He G E. unfold h_rule in E. cbn [fst snd] in E. destruct (contains ls l) eqn:Hc; [|injection E as <-; auto].
    destruct (get_rule_facts P WP _ _ _ _ G) as [G1 [G2 G3]]. destruct (k_range _ _ _ _ _ K _ _ He) as (_ & _ & R3). rewrite Hl in R3.
    assert (Hm : matches (pd_nlab P) ls l) by (eapply contains_spec; eauto).
    assert (Et : mk_edge (e_src t) (Some l) (e_dst t) = t) by (destruct t; cbn in *; congruence).
    assert (He' : edges_of (edges st) (e_src t) (Some l) (e_dst t)) by (unfold edges_of; rewrite Et; exact Hin).
    assert (WT : W st t = wt). { destruct (k_aut _ _ _ _ _ K _ Hin) as (d & E1 & _). congruence. }
    assert (Hlab : match r_op r with PUSH | SWAP => r_opl r < pd_nlab P | _ => True end).
    { destruct (r_op r) eqn:Eo; auto; apply get_rule_at in G; apply nth_error_In in G; apply (wf'_opl P (wf_wf_pda' _ WP) _ _ _ G); auto. }
    destruct (r_op r) eqn:Er.
    - destruct (qp_find (r_to r, r_opl r) (h_qp st)) as [qn|] eqn:Hq; [cbn [obind] in E|discriminate]. rewrite (k_qp _ _ _ _ _ K) in Hq.
      destruct (push_spec P X A0 OK D st (r_to r) (r_opl r) qn (D + r_w r)%Z (TPost (e_src t) id l) K Hq G2 Hlab) as (mo & Emo & K2 & L2 & _). { pose proof (NN _ _ _ _ G). lia. }
      cbn zeta in *. rewrite Emo in E. cbn [obind] in E.
      assert (J1 : forall e v, (e = mk_edge (r_to r) (Some (r_opl r)) qn /\ (0 <= v)%Z \/ e = mk_edge qn (Some l) (e_dst t) /\ (wt + r_w r <= v)%Z) -> sjust P qp (W st) (edges st) e (TPost (e_src t) id l) v).
      { intros e v H. left. exists (e_src t), id, l, r, ls, (e_dst t). rewrite Er, Et, WT. ands; auto. exists qn. auto. }
      assert (T2 := push_tinv D st (r_to r) (r_opl r) qn (D + r_w r)%Z (TPost (e_src t) id l) mo K T Hq Emo). cbv zeta in T2.
      match type of K2 with PostShortProof.kst _ _ _ _ ?s => set (st2 := s) in * end.
      assert (T3 : tinv st2) by (apply T2, J1; left; split; auto; lia). apply (update_tinv D st2 st' _ _ _ K2 T3) in E; auto. rewrite (l_aut _ _ _ L2). apply J1. right. split; auto. lia.
    - apply (update_tinv D st st' _ _ _ K T) in E; auto. left. exists (e_src t), id, l, r, ls, (e_dst t). rewrite Er, Et, WT. ands; auto. lia.
    - apply (update_tinv D st st' _ _ _ K T) in E; auto. left. exists (e_src t), id, l, r, ls, (e_dst t). rewrite Er, Et, WT. ands; auto. lia.
    - apply (update_tinv D st st' _ _ _ K T) in E; auto. left. exists (e_src t), id, l, r, ls, (e_dst t). rewrite Er, Et, WT. ands; auto. lia.
  Qed.

  (** Combining an epsilon edge and an edge. *)
  Lemma combine_tinv : forall D st st' p e, kst D st -> tinv st -> inA st (mk_edge p None (e_src e)) -> inA st e ->
    h_update X st (mk_edge p (e_lab e) (e_dst e)) (W st (mk_edge p None (e_src e)) + W st e)%Z (TEps (e_src e)) = Some st' -> tinv st'.
  Proof.
    intros D st st' p e K T H1 H2 E. destruct (eps_src P X A0 OK D st _ _ K H1) as [Lp Ls]. destruct (high_lab P X A0 OK D st _ K H2 (proj1 Ls)) as [x Ex].
    apply (update_tinv D st st' _ _ _ K T) in E; auto. right. exists (e_src e), x. cbn [e_src e_lab e_dst]. assert (Ee : mk_edge (e_src e) (Some x) (e_dst e) = e) by (destruct e; cbn in *; congruence).
    ands; auto; [unfold edges_of; rewrite Ee; exact H2|rewrite Ee; lia].
  Qed.

  Lemma loops_tinv : forall we st2 st' t wt, kst we st2 -> tinv st2 -> inA st2 t -> ew st2 t = Some (wt, we) -> (e_src t < n \/ nQ <= e_src t) ->
    h_loops P X t wt we st2 = Some st' -> tinv st'.
  Proof.
    intros we st2 st' t wt K T Hin He Hsrc E. unfold h_loops in E. assert (LN : n <= nQ) by apply OK.
    assert (WT : W st2 t = wt). { destruct (k_aut _ _ _ _ _ K _ Hin) as (d & E1 & _). congruence. }
    set (I := fun s : st_t => kst we s /\ kle st2 s /\ tinv s). assert (I0 : I st2). { split; [exact K|split; [|exact T]]. exact (kle_refl P X A0 st2). }
    enough (I st') by (destruct H as (_ & _ & H); exact H).
    destruct (Nat.leb_spec n (e_src t)) as [L|L].
    - destruct (Nat.ltb (e_src t) (h_nQ st2)); [discriminate|]. unfold h_rel2_of in E. destruct (_ && _); [cbn [obind] in E|discriminate].
      eapply (ofold_keep _ _ I) in E; [exact E| |exact I0]. intros s f s' Hf (Ks & Ls & Ts) Es. cbn beta in Es.
      apply in_rev in Hf. apply in_map_iff in Hf. destruct Hf as ([s0 f0] & Ef & Hf). cbn in Ef. subst f0. apply filter_In in Hf. destruct Hf as [Hf Eq].
      cbn in Eq. apply Nat.eqb_eq in Eq. subst s0. apply (k_rel2 _ _ _ _ _ K) in Hf. destruct Hf as [Hf _].
      assert (I1 : inA s (mk_edge f None (e_src t))) by (apply (inA_kle P X A0 _ _ _ Ls); auto). assert (I2 : inA s t) by (apply (inA_kle P X A0 _ _ _ Ls); auto).
      rewrite (h_weight_in _ _ _ I1) in Es. cbn [obind] in Es.
      assert (EW : (wt + W s (mk_edge f None (e_src t)))%Z = (W s (mk_edge f None (e_src t)) + W s t)%Z) by (rewrite (l_aut _ _ _ Ls), WT; lia). rewrite EW in Es.
      destruct (combine_spec P X A0 OK we s f t (TEps (e_src t)) (W s (mk_edge f None (e_src t)) + W s t)%Z Ks I1 I2) as (s1 & E1 & K1 & L1 & _); auto.
      { intros m0 Hm0. assert (Et : ew s t = Some (wt, we)) by (rewrite (l_ew _ _ _ Ls); auto). destruct (k_pot _ _ _ _ _ Ks _ _ _ Et) as (m1 & Hm1 & E1). rewrite Hm0 in Hm1. injection Hm1 as <-.
        assert (0 <= W s (mk_edge f None (e_src t)))%Z by apply (ga_nn _ _ _ (k_good _ _ _ _ _ Ks)). rewrite (l_aut _ _ _ Ls), WT in *. lia. }
      rewrite Es in E1. injection E1 as <-. split; [auto|split; [eapply (kle_trans P X A0); eauto|]]. exact (combine_tinv we s s' f t Ks Ts I1 I2 Es).
    - destruct (e_lab t) as [l|] eqn:El.
      + destruct (nth_error (pd_states P) (e_src t)) as [s|] eqn:Es; [cbn [obind] in E|discriminate].
        eapply (ofold_keep _ _ I) in E; [exact E| |exact I0]. intros s1 [id [r ls]] s' Hx (Ks & Ls & Ts) Es'.
        assert (GR : get_rule P (e_src t) id = Some (r, ls)). { apply enum_In in Hx. unfold get_rule. rewrite Es. auto. }
        assert (I2 : inA s1 t) by (apply (inA_kle P X A0 _ _ _ Ls); auto). assert (Et : ew s1 t = Some (wt, we)) by (rewrite (l_ew _ _ _ Ls); auto).
        destruct (rule_spec P WP X A0 OK NN we s1 t l wt id r ls Ks I2 L El Et GR) as (s2 & E1 & K1 & L1 & _). rewrite Es' in E1. injection E1 as <-.
        split; [auto|split; [eapply (kle_trans P X A0); eauto|]]. exact (rule_tinv we s1 s' t l wt id r ls Ks Ts I2 L El Et GR Es').
      + unfold h_rel1_of in E. destruct (_ && _); [cbn [obind] in E|discriminate]. assert (Et' : t = mk_edge (e_src t) None (e_dst t)) by (destruct t; cbn in *; congruence).
        eapply (ofold_keep _ _ I) in E; [exact E| |exact I0]. intros s e s' Hf (Ks & Ls & Ts) Es. cbn beta in Es. apply in_rev in Hf. apply filter_In in Hf. destruct Hf as [Hf Eq].
        apply Nat.eqb_eq in Eq. apply (k_rel1 _ _ _ _ _ K) in Hf. destruct Hf as [Hf _].
        assert (I1 : inA s (mk_edge (e_src t) None (e_src e))) by (apply (inA_kle P X A0 _ _ _ Ls); rewrite Eq, <- Et'; auto). assert (I2 : inA s e) by (apply (inA_kle P X A0 _ _ _ Ls); auto).
        rewrite (h_weight_in _ _ _ I2) in Es. cbn [obind] in Es. destruct (Nat.ltb (e_dst e) (pd_n P)); [discriminate|].
        assert (EW : (W s e + wt)%Z = (W s (mk_edge (e_src t) None (e_src e)) + W s e)%Z) by (rewrite (l_aut _ _ _ Ls), Eq, <- Et', WT; lia). rewrite EW, <- Eq in Es.
        destruct (combine_spec P X A0 OK we s (e_src t) e (TEps (e_src e)) (W s (mk_edge (e_src t) None (e_src e)) + W s e)%Z Ks I1 I2) as (s1 & E1 & K1 & L1 & _); auto.
        { intros me Hme. assert (Et : ew s t = Some (wt, we)) by (rewrite (l_ew _ _ _ Ls); auto). destruct (k_pot _ _ _ _ _ Ks _ _ _ Et) as (m1 & Hm1 & E1).
          destruct (k_aut _ _ _ _ _ Ks _ I2) as (de & Ee & _). destruct (k_pot _ _ _ _ _ Ks _ _ _ Ee) as (m2 & Hm2 & E2). rewrite Hme in Hm2. injection Hm2 as <-. rewrite <- EW. rewrite (l_aut _ _ _ Ls) in *.
          destruct (Nat.lt_ge_cases (e_dst t) nQ) as [L3|L3].
          - unfold mp in Hm1. apply Nat.ltb_lt in L3. rewrite L3 in Hm1. injection Hm1 as <-. destruct (k_nn _ _ _ _ _ Ks _ _ _ Ee). lia.
          - destruct (k_out _ _ _ _ _ Ks _ _ _ Ee) as (ms & Hms & Lms); [lia|]. rewrite Eq, Hm1 in Hms. injection Hms as <-. lia. }
        rewrite Es in E1. injection E1 as <-. split; [auto|split; [eapply (kle_trans P X A0); eauto|]]. exact (combine_tinv we s s' (e_src t) e Ks Ts I1 I2 Es).
  Qed.

  Lemma h_et_same : forall (st st' : st_t) e t w etp, h_et X et st e t w etp = Some st' -> exists f x,
    st' = mk_ps (h_aut st) (h_nQ st) (h_qp st) (h_min st) (h_ew st) (h_ws st) (h_rel1 st) (h_rel2 st) f (h_pops st) x.
  Proof.
    intros st st' e t w etp H. unfold h_et in H. destruct et as [f|].
    - destruct (f _ _ _ _ _ _) as [[b x]|]; [|discriminate]. cbn in H. injection H as <-. eauto.
    - injection H as <-. exists (h_found st), (h_x st). destruct st; auto.
  Qed.

  Lemma insert_rel_same : forall (st st' : st_t) e, h_insert_rel P X st e = Some st' -> h_aut st' = h_aut st /\ h_ew st' = h_ew st /\ h_ws st' = h_ws st.
  Proof.
    intros st st' e H. unfold h_insert_rel in H. destruct (Nat.leb (pd_n P) (e_src e)), (Nat.ltb (e_src e) (h_size st)), (e_lab e), (Nat.leb (h_nQ st) (e_dst e)), (Nat.ltb (e_dst e) (h_size st)); cbn [obind] in H; try discriminate; injection H as <-; auto.
  Qed.

  Lemma step_tinv : forall D st st', kst D st -> kcl None st -> tinv st -> h_step P X et ptop st = Some st' -> tinv st'.
  Proof.
    intros D st st' K C T E. unfold h_step in E.
    destruct (nth_error (h_ws st) (ptop (h_pops st) (h_ws st))) as [x|] eqn:Ht; [|discriminate].
    assert (NE : h_ws st <> []) by (intros Hn; rewrite Hn in Ht; destruct (ptop _ _); discriminate).
    destruct (PT (h_pops st) _ NE) as (x' & Ht' & Hmin). rewrite Ht in Ht'. injection Ht' as <-. destruct x as [we [t tr]]. cbn [obind fst snd] in *.
    destruct (remove_at_split _ _ _ _ Ht) as (l1 & l2 & Ew & Er). rewrite Er in E.
    assert (INQ : In (we, (t, tr)) (h_ws st)) by (rewrite Ew; apply in_or_app; right; left; auto).
    destruct (k_ws _ _ _ _ _ K we t tr INQ) as (Dw & Hs & wt & d & He & Hd).
    assert (SUB : forall x, In x (l1 ++ l2) -> In x (h_ws st)). { intros y. rewrite Ew, !in_app_iff. cbn. tauto. }
    fold (ew st t) in E. rewrite He in E. cbn [obind fst snd] in E. fold (popped X st (l1 ++ l2) (Datatypes.S (h_pops st))) in E.
    destruct (Z.ltb_spec d we) as [L|L].
    - injection E as <-. apply (tinv_same st); auto.
    - assert (d = we) by lia. subst d. destruct (Nat.ltb (e_dst t) n); [discriminate|].
      destruct (move_spec P X A0 D st l1 l2 we t tr wt (Datatypes.S (h_pops st)) K C Ew Hmin He) as (st1 & A' & E1 & Ea & Ex & Ef & EA & GA & WT & MV).
      rewrite E1 in E. cbn [obind] in E. rewrite Ea, EA in E. cbn [obind] in E.
      destruct (h_et X et (h_set_aut X st1 A') t tr wt we) as [st2|] eqn:Ee; [cbn [obind] in E|discriminate].
      destruct (h_et_same _ _ _ _ _ _ Ee) as (f & x & E2). cbn [h_set_aut h_aut h_nQ h_qp h_min h_ew h_ws h_rel1 h_rel2 h_pops] in E2.
      specialize (MV x f). cbv zeta in MV. rewrite <- E2 in MV. destruct MV as (K2 & C2 & Hin & He2 & NL & IA & LV).
      assert (T2 : tinv st2).
      { assert (EI : h_ew st1 = h_ew st /\ h_ws st1 = l1 ++ l2).
        { destruct (insert_rel_same _ _ _ E1) as (_ & I1 & I2). auto. }
        destruct EI as [EI1 EI2]. assert (EWS : h_ws st2 = l1 ++ l2) by (rewrite E2; cbn; auto). assert (EEW : forall e, ew st2 e = ew st e) by (intros e; unfold PostShortProof.ew; rewrite E2; cbn; rewrite EI1; auto).
        assert (EAU : h_aut st2 = A') by (rewrite E2; auto). destruct T as [T1 T2].
        assert (CASE : (A' = h_aut st) \/ (~ inA st t /\ A' = mk_waut (mk_aut (a_acc (wa_aut (h_aut st))) ((t, tr) :: edges st) (a_ord (wa_aut (h_aut st)))) ((t, wt) :: wa_w (h_aut st)))).
        { unfold wa_add_edge in EA. assert (Hr := k_range _ _ _ _ _ K _ _ He). assert (HS : e_src t < a_size (wa_aut (h_aut st))). { unfold a_size. rewrite (ga_acc _ _ _ (k_good _ _ _ _ _ K)). apply Hr. }
          destruct (emplace_cases (wa_aut (h_aut st)) t tr HS) as [[Hi Em]|[Hi Em]]; rewrite Em in EA; cbn [obind fst snd] in EA; [left|right; split; auto]; congruence. }
        destruct CASE as [CA|[NI CA]].
        - apply (tinv_same st); auto; [split; auto|congruence|]. intros y Hy. rewrite EWS in Hy. auto.
        - assert (WE : forall e, In e (map fst (edges st)) -> w_of A' e = W st e).
          { intros e Hi. rewrite CA. unfold w_of. cbn [wa_w]. rewrite w_find_cons. destruct (edge_eq_dec t e) as [<-|]; auto. contradiction. }
          assert (ED : a_edges (wa_aut A') = (t, tr) :: edges st) by (rewrite CA; auto). split.
          + rewrite EAU, ED. constructor.
            * apply (wjs_ext P qp (W st)); auto.
            * destruct (T2 _ _ _ INQ) as [Hb|(v & J & Hv)]; [exfalso; apply NI; eapply wjs_incl; eauto|]. rewrite WT. apply (sjust_ext P qp (W st) _ (edges st) [] t tr v); auto. apply (Hv wt we); auto.
          + intros w e t0 Hq. rewrite EWS in Hq. destruct (T2 _ _ _ (SUB _ Hq)) as [Hb|(v & J & Hv)]; [left; auto|]. right. exists v. rewrite EAU, ED, EEW. split; auto.
            apply (sjust_ext P qp (W st) _ (edges st) [(t, tr)] e t0 v); auto. lia. }
      apply (loops_tinv we st2 st' t wt K2 T2 Hin He2 Hs). unfold h_loops. rewrite (k_nQ _ _ _ _ _ K2). rewrite (k_nQ _ _ _ _ _ K) in E. exact E.
  Qed.

  Lemma init_tinv : forall x st, h_init P X et A0 x = Some st -> tinv st.
  Proof.
    intros x st H. unfold h_init in H. destruct (negative_rules P || negative_edges A0); [discriminate|]. destruct (Nat.leb _ _); [|discriminate].
    set (A1 := fst (qp_init P (wa_aut A0))) in *. set (A1w := mk_waut A1 (wa_w A0)) in *. assert (EE : a_edges A1 = E0) by apply (qo_edges _ _ (proj1 (qp_init_ok P (wa_aut A0)))).
    assert (I : h_aut st = A1w /\ forall w e t, In (w, (e, t)) (h_ws st) -> In e (map fst E0)).
    { eapply (ofold_keep _ _ (fun s : st_t => h_aut s = A1w /\ forall w e t, In (w, (e, t)) (h_ws s) -> In e (map fst E0))) in H; [exact H| |split; [auto|intros ? ? ? []]].
      clear st H. intros s q s' Hq [J1 J2] Es. unfold h_init_state in Es. rewrite J1 in Es.
      eapply (ofold_keep _ _ (fun s : st_t => h_aut s = A1w /\ forall w e t, In (w, (e, t)) (h_ws s) -> In e (map fst E0))) in Es; [exact Es| |split; auto].
      clear s s' J1 J2 Es. intros s t s' Ht I Es. destruct I as [I1 I2]. cbn beta in Es. rewrite I1 in Es.
      eapply (ofold_keep _ _ (fun s : st_t => h_aut s = A1w /\ forall w e t, In (w, (e, t)) (h_ws s) -> In e (map fst E0))) in Es; [exact Es| |split; auto].
      clear s s' I1 I2 Ht Es. intros s l s' Hl [I1 I2] Es. cbn beta in Es. apply labels_between_In in Hl.
      assert (HI : In (mk_edge q l t) (map fst E0)) by (rewrite <- EE; exact Hl).
      unfold h_init_edge in Es. cbn [e_lab e_src] in Es. destruct l as [l|]; [|discriminate].
      set (s1 := match w_find _ _ with None => _ | Some _ => _ end) in Es. assert (A1s : h_aut s1 = A1w) by (unfold s1; destruct (w_find _ _); auto). assert (W1s : h_ws s1 = h_ws s) by (unfold s1; destruct (w_find _ _); auto).
      destruct (Nat.ltb q n).
      - injection Es as <-. split; auto. cbn. rewrite W1s. intros w e t0 Hi. apply in_app_or in Hi. destruct Hi as [Hi|[Hi|[]]]; eauto. injection Hi as <- <- <-. auto.
      - destruct (h_insert_rel P X s1 (mk_edge q (Some l) t)) as [s2|] eqn:E2; [cbn [obind] in Es|discriminate]. destruct (find_edge _ _) as [tr|]; [cbn [obind] in Es|discriminate].
        apply h_et_same in Es. destruct Es as (f & x0 & ->). cbn [h_aut h_ws].
        assert (EI : h_aut s2 = h_aut s1 /\ h_ws s2 = h_ws s1).
        { destruct (insert_rel_same _ _ _ E2) as (I3 & _ & I4). auto. }
        destruct EI as [EI1 EI2]. rewrite EI1, EI2, W1s. auto. }
    destruct I as [I1 I2]. split.
    - rewrite I1. cbn [A1w wa_aut]. rewrite EE. constructor.
    - intros w e t Hq. left. eauto.
  Qed.

  Variable J : waut -> X -> Prop.
  Variable JT : waut -> X -> waut -> X -> Z -> Prop.
  Hypothesis J_none : et = None -> forall A x e tr w A', J A x -> wa_add_edge A e tr w = Some A' -> J A' x.
  Hypothesis J_call : forall f A x e tr w A' etp, et = Some f -> J A x -> goodA P A0 A -> goodA P A0 A' -> wa_add_edge A e tr w = Some A' -> w_of A' e = w -> (0 <= etp)%Z ->
    In e (map fst (a_edges (wa_aut A'))) ->
    exists b x', f A' x e tr w etp = Some (b, x') /\ if b then JT A x A' x' etp else J A' x'.

  Lemma run_tinv : forall fuel D st st' b, kst D st -> kcl None st -> J (h_aut st) (h_x st) -> h_found st = false -> tinv st -> h_run P X et ptop fuel st = done (st', b) ->
    tinv st' /\ exists D', kst D' st'.
  Proof.
    induction fuel as [|fuel IH]; intros D st st' b K C HJ Hf T E; cbn [h_run] in E.
    - destruct (h_ws st); [injection E as <- <-; eauto|]. rewrite Hf in E. destruct et; discriminate.
    - destruct (h_ws st) as [|x ws] eqn:Ew; [injection E as <- <-; eauto|]. rewrite Hf in E.
      assert (E' : match h_step P X et ptop st with None => None | Some st1 => h_run P X et ptop fuel st1 end = done (st', b)) by (destruct et; auto). clear E.
      destruct (step_spec P WP X et ptop PT A0 OK NN J JT J_none J_call D st K C HJ Hf) as (st1 & we & Es & _ & _ & K1 & C1 & HB & _); [congruence|]. rewrite Es in E'.
      assert (T1 : tinv st1) by exact (step_tinv D st st1 K C T Es). destruct (h_found st1) eqn:F1; [|eapply (IH we st1); eauto].
      destruct HB as [HE _]. destruct fuel; cbn [h_run] in E'; rewrite F1 in E'; destruct (h_ws st1); try (injection E' as <- <-; eauto; fail); destruct et; try congruence; injection E' as <- <-; eauto.
  Qed.
End Inv.
