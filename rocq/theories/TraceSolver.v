(** The traces returned by the solver are runs between the two automata. *)
From Coq Require Import List Arith Lia Bool ZArith Permutation.
From Verif Require Import Base BaseFacts Spec SpecFacts PdaModel PdaProof AutModel AutProof PreStarModel PreStarProof PreStarLang
  PostStarModel PostStarProof PostStarLang SolverModel QueryModel QueryProof ProductModel ProductProof VerdictModel VerdictProof TraceModel TraceProof.
Import ListNotations.

Lemma ap_split_spec : forall p, ap_split p =
  (mk_apth (fst (ap_end p)) (map (fun e => (fst e, fst (snd e))) (ap_edges p)), mk_apth (snd (ap_end p)) (map (fun e => (fst e, snd (snd e))) (ap_edges p))).
Proof.
  intros [e es]. unfold ap_split. cbn [ap_end ap_edges].
  assert (G: forall l e1 l1 e2 l2, fold_left (fun (ab : apth nat * apth nat) (x : option nat * (nat * nat)) => (ap_emplace (fst ab) (fst (snd x)) (fst x), ap_emplace (snd ab) (snd (snd x)) (fst x))) l
     (mk_apth e1 l1, mk_apth e2 l2) = (mk_apth e1 (rev (map (fun e => (fst e, fst (snd e))) l) ++ l1), mk_apth e2 (rev (map (fun e => (fst e, snd (snd e))) l) ++ l2))).
  { induction l as [|x l IH]; intros; cbn; auto. unfold ap_emplace. cbn. rewrite IH, <- !app_assoc. auto. }
  rewrite G, !app_nil_r. rewrite <- !map_rev, rev_involutive. auto.
Qed.

Lemma combine_map_snd : forall A B C (f : B -> C) (ls : list A) (qs : list B), combine ls (map f qs) = map (fun e => (fst e, f (snd e))) (combine ls qs).
Proof. intros A B C f ls. induction ls as [|l ls IH]; intros [|q qs]; cbn; auto. rewrite IH. auto. Qed.

(** A path through mapped edges. *)
Lemma spath_pvalid : forall (E E' : edgeset) (g : nat -> nat) qs ls d, spath E qs ls -> (forall q l q', E q l q' -> E' (g q) l (g q')) ->
  pvalid E' (last (map g qs) d) (combine ls (map g qs)) /\ pfront (last (map g qs) d) (combine ls (map g qs)) = g (hd 0 qs).
Proof.
  intros E E' g qs ls d H HE. induction H as [q|q l q' qs ls He Hs [IH1 IH2]]; [cbn; auto|]. split; [|reflexivity].
  change (map g (q :: q' :: qs)) with (g q :: map g (q' :: qs)). cbn [combine pvalid].
  replace (last (g q :: map g (q' :: qs)) d) with (last (map g (q' :: qs)) d) by reflexivity. split; auto. rewrite IH2. cbn. auto.
Qed.

Lemma stack_combine : forall B (ls : list (option nat)) (qs : list B), length qs = S (length ls) -> map fst (combine ls qs) = ls.
Proof. intros B ls. induction ls as [|l ls IH]; intros [|q qs] H; cbn in *; try discriminate; auto. f_equal. apply IH. lia. Qed.

Lemma last_map : forall A B (g : A -> B) l d, last (map g l) (g d) = g (last l d).
Proof. intros A B g. induction l as [|x l IH]; intros d; auto. destruct l; auto. apply (IH d). Qed.

(** find_path with more fuel gives the same result. *)
Lemma find_path_loop_mono : forall A f f' path lst ws seen r, find_path_loop A f path lst ws seen = done r -> f <= f' -> find_path_loop A f' path lst ws seen = done r.
Proof.
  intros A f. induction f as [|f IH]; intros f' path lst ws seen r H L; destruct ws as [|[[q i] ll] ws]; destruct f' as [|f']; auto; try lia; try discriminate.
  cbn [find_path_loop] in *. destruct (q <? a_size A); [|discriminate]. destruct (eloop _ _ _) as [[[ws' seen']|p]|]; cbn [obind] in *; auto. apply IH; auto. lia.
Qed.
Lemma find_path_mono : forall T n A (sm : nat -> T) f f' r, find_path n A sm f = done r -> f <= f' -> find_path n A sm f' = done r.
Proof.
  intros T n A sm f f' r H L. unfold find_path in *. destruct (first_accepting A n) as [[i|]|]; cbn [obind] in *; auto.
  destruct (find_path_loop A f [] [] _ []) as [[r'|]|] eqn:E; try discriminate. rewrite (find_path_loop_mono _ _ _ _ _ _ _ _ E L). auto.
Qed.

(** ** The path found in the product *)
Section Prod.
  Variables (P : pda) (F S : aut) (back : bool) (pr : prod_st).
  Let n := pd_n P.
  Hypothesis HF : n <= a_size F.
  Hypothesis HS : n <= a_size S.
  Hypothesis B : pbase n F S back pr.
  Let A := pr_aut pr.

  Lemma prod_wf : aut_wf A.
  Proof.
    pose proof (pb_0 _ _ _ _ _ B) as B0. constructor; [apply B0|]. intros q l q' H. destruct (pb_edges _ _ _ _ _ B0 _ _ _ H) as [a [b [a' [b' [K1 [K2 _]]]]]].
    split; apply (pair_lt n F S back HF HS pr); eauto.
  Qed.
  Lemma prod_size : n <= a_size A.
  Proof. pose proof (pb_size _ _ _ _ _ (pb_0 _ _ _ _ _ B)) as K. unfold psz in K. unfold A. lia. Qed.

  Lemma orig_small : forall id, id < n -> orig_pair P pr id = (id, id).
  Proof. intros id H. unfold orig_pair, pr_pair. fold n. apply Nat.ltb_lt in H. rewrite H. auto. Qed.
  Lemma orig_edge : forall id l id', aut_edges A id l id' ->
    joint (aut_edges F) (aut_edges S) (fst (orig_pair P pr id)) (snd (orig_pair P pr id)) l (fst (orig_pair P pr id')) (snd (orig_pair P pr id')).
  Proof.
    intros id l id' H. destruct (pb_edges _ _ _ _ _ (pb_0 _ _ _ _ _ B) _ _ _ H) as [a [b [a' [b' [K1 [K2 K3]]]]]]. unfold orig_pair. fold n. rewrite K1, K2. auto.
  Qed.
  Lemma orig_final : forall id, aut_final A id -> aut_final F (fst (orig_pair P pr id)) /\ aut_final S (snd (orig_pair P pr id)).
  Proof.
    intros id H. assert (L: id < psz pr) by (eapply nth_error_lt; exact H). apply (pair_lt n F S back HF HS pr) in L; [|apply B]. destruct L as [[a b] L].
    unfold orig_pair. fold n. rewrite L. apply (pb_acc _ _ _ _ _ (pb_0 _ _ _ _ _ B) _ _ _ L); auto.
  Qed.

  Lemma prod_find : forall T (sm : nat -> T), exists r0,
    (forall fuel, (find_path n A sm fuel = Some None /\ fuel < n + a_size A) \/ find_path n A sm fuel = done r0) /\
    ((has_accepting pr = false /\ r0 = None) \/
     (has_accepting pr = true /\ exists qs ls, r0 = Some (mk_apth (last (map sm qs) (sm 0)) (combine ls (map sm qs))) /\
        spath (aut_edges A) qs ls /\ hd 0 qs < n /\ aut_final A (last qs 0))).
  Proof.
    intros T sm.
    assert (G: exists r0, find_path n A sm (n + a_size A) = done r0 /\ ((has_accepting pr = false /\ r0 = None) \/
     (has_accepting pr = true /\ exists qs ls, r0 = Some (mk_apth (last (map sm qs) (sm 0)) (combine ls (map sm qs))) /\
        spath (aut_edges A) qs ls /\ hd 0 qs < n /\ aut_final A (last qs 0)))).
    { destruct (find_path_spec A prod_wf n prod_size T sm (n + a_size A)) as [K KB].
      destruct K as [K|[[qs [ls [K1 [K2 [K3 K4]]]]]|[K1 K2]]].
      - destruct (KB (le_n _) K).
      - eexists. split; [exact K1|]. right. split; [|exists qs, ls; auto]. eapply has_accepting_spec. eauto.
      - eexists. split; [exact K1|]. left. split; auto. destruct (has_accepting pr) eqn:E; auto. exfalso. apply has_accepting_spec in E. destruct E as [id E].
        assert (L: id < psz pr) by (eapply nth_error_lt; exact E). destruct (pb_reach _ _ _ _ _ B id L) as [p [w [Hp Hw]]]. eapply K2; eauto. }
    destruct G as [r0 [G1 G2]]. exists r0. split; auto. intros fuel. destruct (Nat.lt_ge_cases fuel (n + a_size A)) as [L|L]; [|right; eapply find_path_mono; eauto].
    destruct (find_path_spec A prod_wf n prod_size T sm fuel) as [[K|[[qs [ls [K _]]]|[K _]]] _]; auto.
    - right. rewrite K. assert (K' := find_path_mono _ _ _ _ _ (n + a_size A) _ K). rewrite <- G1, K'; auto. lia.
    - right. rewrite K. assert (K' := find_path_mono _ _ _ _ _ (n + a_size A) _ K). rewrite <- G1, K'; auto. lia.
  Qed.

  (** The component paths. *)
  Section Path.
    Variables (qs : list nat) (ls : list (option nat)).
    Hypothesis SP : spath (aut_edges A) qs ls.
    Hypothesis Hq : hd 0 qs < n.
    Hypothesis Hfin : aut_final A (last qs 0).
    Let g1 := fun id => fst (orig_pair P pr id).
    Let g2 := fun id => snd (orig_pair P pr id).
    Let c : config := (hd 0 qs, word ls).

    Lemma path_len : length qs = Datatypes.S (length ls).
    Proof. eapply spath_length; eauto. Qed.

    Lemma langs : aut_lang n F c /\ aut_lang n S c.
    Proof.
      assert (HP := spath_apath _ _ _ SP 0). destruct (product_path n F S back pr (pb_0 _ _ _ _ _ B) _ _ _ HP (hd 0 qs) (hd 0 qs)) as [a [b [K1 [K2 K3]]]].
      { unfold pr_pair. apply Nat.ltb_lt in Hq. rewrite Hq. auto. }
      apply (pb_acc _ _ _ _ _ (pb_0 _ _ _ _ _ B) _ _ _ K1) in Hfin. destruct Hfin as [F1 F2]. split; (split; [exact Hq|]; eauto).
    Qed.

    Definition p1 : apth nat := mk_apth (last (map g1 qs) (g1 0)) (combine ls (map g1 qs)).
    Lemma p1_spec : (forall q q', ~ aut_edges S q None q') -> valid (aut_edges F) p1 /\ pconf p1 = c /\ aut_final F (ap_end p1).
    Proof.
      intros NS. destruct (spath_pvalid (aut_edges A) (aut_edges F) g1 qs ls (g1 0) SP) as [K1 K2].
      { intros q l q' H. apply orig_edge in H. destruct l; cbn in H; [apply H|]. destruct H as [[H _]|[H _]]; auto. destruct (NS _ _ H). }
      ands; auto.
      - unfold pconf. rewrite ap_front_pfront. unfold p1. cbn [ap_end ap_edges]. rewrite K2. unfold g1. rewrite orig_small by auto. unfold ap_stack. cbn [ap_edges].
        rewrite stack_combine; auto. rewrite map_length. apply path_len.
      - unfold p1. cbn [ap_end]. rewrite last_map. apply orig_final; auto.
    Qed.

    (** The path in the second component, when only the first component has epsilon edges and only at the very start. *)
    Definition p2 : apth nat := mk_apth (last (map g2 qs) (g2 0)) (combine ls (map g2 qs)).
    Lemma p2_spec : (forall q q', ~ aut_edges S q None q') -> (forall q q', aut_edges F q None q' -> q < n) -> (forall q l q', aut_edges F q l q' -> n <= q') ->
      exists p2', ap_remove_epsilon p2 = Some p2' /\ valid (aut_edges S) p2' /\ pconf p2' = c /\ aut_final S (ap_end p2').
    Proof.
      intros NS NF NI. assert (HE: aut_final S (last (map g2 qs) (g2 0))). { rewrite last_map. apply orig_final; auto. }
      assert (IN: forall qs ls, spath (aut_edges A) qs ls -> n <= g1 (hd 0 qs) ->
         pvalid (aut_edges S) (last (map g2 qs) (g2 0)) (combine ls (map g2 qs)) /\ pfront (last (map g2 qs) (g2 0)) (combine ls (map g2 qs)) = g2 (hd 0 qs)).
      { intros qs' ls' H. induction H as [q|q l q' qs' ls' He Hs IH]; intros Hn; [cbn; auto|]. split; [|reflexivity]. cbn [hd] in *.
        assert (J := orig_edge _ _ _ He). fold (g1 q) (g2 q) (g1 q') (g2 q') in J.
        assert (N': n <= g1 q' /\ aut_edges S (g2 q) l (g2 q')).
        { destruct l; cbn in J; [destruct J as [J1 J2]; split; auto; eapply NI; eauto|]. destruct J as [[J _]|[J _]]; [apply NF in J; lia|destruct (NS _ _ J)]. }
        destruct N' as [N1 N2]. destruct (IH N1) as [I1 I2]. change (map g2 (q :: q' :: qs')) with (g2 q :: map g2 (q' :: qs')). cbn [combine pvalid].
        replace (last (g2 q :: map g2 (q' :: qs')) (g2 0)) with (last (map g2 (q' :: qs')) (g2 0)) by reflexivity. split; auto. rewrite I2. auto. }
      assert (LEN := path_len). unfold p2. revert SP Hq HE LEN. unfold c. clear Hfin. intros SP0 Hq0 HE LEN.
      inversion SP0 as [q E1 E2|q l q' qs' ls' He Hs E1 E2]; subst.
      - cbn in *. eexists. split; [reflexivity|]. ands; auto. { cbn; auto. } unfold pconf. cbn. unfold g2. rewrite orig_small; auto.
      - assert (J := orig_edge _ _ _ He). fold (g1 q) (g2 q) (g1 q') (g2 q') in J. cbn [hd] in *. assert (Q1: g1 q = q) by (unfold g1; rewrite orig_small; auto). assert (Q2: g2 q = q) by (unfold g2; rewrite orig_small; auto).
        change (map g2 (q :: q' :: qs')) with (g2 q :: map g2 (q' :: qs')) in *. cbn [combine].
        replace (last (g2 q :: map g2 (q' :: qs')) (g2 0)) with (last (map g2 (q' :: qs')) (g2 0)) in * by reflexivity. set (e := last (map g2 (q' :: qs')) (g2 0)) in *.
        assert (N1: n <= g1 q'). { destruct l; cbn in J; [destruct J as [J1 _]; eapply NI; eauto|]. destruct J as [[J _]|[J _]]; [eapply NI; eauto|destruct (NS _ _ J)]. }
        destruct (IN _ _ Hs N1) as [I1 I2]. fold e in I1, I2. cbn [hd] in I2.
        assert (LE: length (map g2 (q' :: qs')) = Datatypes.S (length ls')) by (rewrite map_length; cbn in *; lia).
        destruct l as [l|]; cbn in J.
        + destruct J as [_ J]. exists (mk_apth e ((Some l, g2 q) :: combine ls' (map g2 (q' :: qs')))). split; [reflexivity|]. ands; auto.
          * unfold valid. cbn [ap_end ap_edges pvalid]. split; auto. rewrite I2. auto.
          * unfold pconf, ap_stack. cbn [ap_front ap_edges]. rewrite Q2. f_equal. cbn [map fst]. rewrite stack_combine; auto.
        + assert (g2 q = g2 q') by (destruct J as [[_ J]|[J _]]; [auto|destruct (NS _ _ J)]). 
          unfold ap_remove_epsilon, ap_front_edge. cbn [ap_edges ap_end]. fold (pfront e (combine ls' (map g2 (q' :: qs')))). rewrite I2.
          replace (g2 q =? g2 q') with true by (symmetry; apply Nat.eqb_eq; auto). unfold ap_pop. cbn [ap_edges ap_end].
          eexists. split; [reflexivity|]. ands; auto. unfold pconf. rewrite ap_front_pfront. cbn [ap_end ap_edges]. rewrite I2. unfold ap_stack. cbn [ap_edges]. rewrite stack_combine; auto. f_equal. congruence.
    Qed.

    (** The path through the second component without its epsilon steps. *)
    Lemma p2_steps : (forall q q', ~ aut_edges S q None q') ->
      spath (aut_edges S) (fst (ap_path_and_stack p2)) (map Some (snd (ap_path_and_stack p2))) /\ hd_error (fst (ap_path_and_stack p2)) = Some (fst c) /\
      aut_final S (last (fst (ap_path_and_stack p2)) 0) /\ snd (ap_path_and_stack p2) = snd c.
    Proof.
      intros NS. assert (HE: aut_final S (last (map g2 qs) (g2 0))). { rewrite last_map. apply orig_final; auto. }
      assert (Q2: g2 (hd 0 qs) = hd 0 qs) by (unfold g2; rewrite orig_small; auto). unfold c. cbn [fst snd]. rewrite <- Q2. clear Q2.
      unfold ap_path_and_stack, p2. cbn [ap_end ap_edges fst snd]. set (e := last (map g2 qs) (g2 0)) in *.
      assert (G: forall qs ls, spath (aut_edges A) qs ls -> last (map g2 qs) (g2 0) = e ->
        let path := flat_map (fun e0 : option nat * nat => match fst e0 with Some _ => [snd e0] | None => [] end) (combine ls (map g2 qs)) ++ [e] in
        spath (aut_edges S) path (map Some (flat_map (fun e0 : option nat * nat => match fst e0 with Some l => [l] | None => [] end) (combine ls (map g2 qs)))) /\
        hd_error path = Some (g2 (hd 0 qs)) /\
        flat_map (fun e0 : option nat * nat => match fst e0 with Some l => [l] | None => [] end) (combine ls (map g2 qs)) = word ls).
      { intros qs' ls' H. induction H as [q|q l q' qs' ls' He Hs IH]; intros EL; cbv zeta.
        - cbn in *. subst e. rewrite EL. ands; auto. constructor.
        - change (map g2 (q :: q' :: qs')) with (g2 q :: map g2 (q' :: qs')) in *.
          replace (last (g2 q :: map g2 (q' :: qs')) (g2 0)) with (last (map g2 (q' :: qs')) (g2 0)) in EL by reflexivity.
          destruct (IH EL) as [I1 [I2 I3]]. assert (J := orig_edge _ _ _ He). fold (g1 q) (g2 q) (g1 q') (g2 q') in J. cbn [combine flat_map fst snd hd].
          destruct l as [l|]; cbn in J.
          + destruct J as [_ J]. cbn [app]. ands; auto; [|cbn; f_equal; auto].
            cbn [hd] in I2. destruct (flat_map _ (combine ls' (map g2 (q' :: qs'))) ++ [e]) as [|y ys] eqn:EY in *; [discriminate|].
            inversion I2; subst y. cbn [map]. constructor; auto.
          + assert (g2 q = g2 q') by (destruct J as [[_ J]|[J _]]; [auto|destruct (NS _ _ J)]). cbn [app]. ands; auto. rewrite I2. cbn. congruence. }
      destruct (G _ _ SP eq_refl) as [G1 [G2 G3]]. cbv zeta in *. ands; auto. rewrite last_last. auto.
    Qed.

    Lemma split_paths : ap_split (mk_apth (last (map (orig_pair P pr) qs) (orig_pair P pr 0)) (combine ls (map (orig_pair P pr) qs))) = (p1, p2).
    Proof.
      rewrite ap_split_spec. unfold p1, p2, g1, g2. cbn [ap_end ap_edges]. rewrite (last_map _ _ (orig_pair P pr)), (last_map _ _ (fun id => fst (orig_pair P pr id))), (last_map _ _ (fun id => snd (orig_pair P pr id))).
      rewrite !combine_map_snd, !map_map. reflexivity.
    Qed.
  End Path.
End Prod.

(** ** TraceBack on one automaton *)
Definition labs_lt (P : pda) (E : edgeset) : Prop := forall q l q', E q (Some l) q' -> l < pd_nlab P.
Lemma decode_valid : forall P E p, labs_lt P E -> valid E p -> decode_edges P p = pconf p.
Proof.
  intros P E [e es] HL HV. unfold decode_edges, pconf. f_equal. unfold valid, ap_stack in *. cbn [ap_end ap_edges] in *. induction es as [|[l s] es IH]; auto.
  destruct HV as [H1 H2]. cbn. rewrite IH by auto. destruct l as [l|]; auto. apply HL, Nat.ltb_lt in H1. rewrite H1. auto.
Qed.

(** The rules applied in order. *)
Fixpoint rule_run (P : pda) (c : config) (ss : list rstep) (c' : config) : Prop :=
  match ss with [] => c = c' | s :: ss' => exists c1, rs_step P s c c1 /\ rule_run P c1 ss' c' end.
Lemma rule_run_app : forall P s1 s2 c c1 c2, rule_run P c s1 c1 -> rule_run P c1 s2 c2 -> rule_run P c (s1 ++ s2) c2.
Proof. intros P s1. induction s1 as [|s s1 IH]; cbn; intros s2 c c1 c2 H1 H2; [subst; auto|]. destruct H1 as [c' [H H1]]. exists c'. split; auto. eapply IH; eauto. Qed.
Lemma chain_pre_rules : forall P Inv steps c c', chain P false Inv c steps c' -> rule_run P c (map fst steps) c'.
Proof. intros P Inv steps. induction steps as [|[s p] steps IH]; cbn; intros c c' H; auto. destruct H as [H1 [_ H2]]. exists (pconf p). auto. Qed.
Lemma chain_post_rules : forall P Inv steps c c', chain P true Inv c steps c' -> rule_run P c' (rev (map fst steps)) c.
Proof.
  intros P Inv steps. induction steps as [|[s p] steps IH]; cbn; intros c c' H; auto. destruct H as [H1 [_ H2]]. eapply rule_run_app; [apply IH; eauto|]. cbn. eauto.
Qed.
Lemma chain_inv : forall P b Inv steps c c', chain P b Inv c steps c' -> forall x, In x steps -> Inv (snd x).
Proof. intros P b Inv steps. induction steps as [|[s p] steps IH]; cbn; intros c c' H x; [tauto|]. destruct H as [_ [H1 H2]]. intros [<-|Hx]; eauto. Qed.

Definition lang_path (A : aut) (p : apth nat) : Prop := valid (aut_edges A) p /\ aut_final A (ap_end p).
Lemma lang_path_lang : forall n A p, lang_path A p -> ap_front p < n -> aut_lang n A (pconf p).
Proof.
  intros n A p [H1 H2] H3. split; auto. exists (ap_end p). split; auto. unfold pconf. cbn. rewrite ap_front_pfront. apply pvalid_apath. auto.
Qed.

(** What a run of TraceBack from an accepting path gives. *)
Record tb_ok (P : pda) (b : bool) (A0 A : aut) (p : apth nat) (r : list (rstep * apth nat) * apth nat * bool) : Prop := {
  tk_chain : exists Inv, chain P b Inv (pconf p) (fst (fst r)) (pconf (snd (fst r))) /\ forall p', Inv p' -> valid (aut_edges A) p';
  tk_path : lang_path A0 (snd (fst r));
  tk_front : ap_front (snd (fst r)) < pd_n P;
  tk_post : snd r = b && negb (is_nil (fst (fst r))) }.

Lemma pre_tb : forall P A0 A, wf_pda P -> pre_ok P A0 -> no_in P A0 -> all_null A0 -> pre_side P A0 A ->
  forall p, lang_path A p -> ap_front p < pd_n P -> forall fuel,
  (tb_run P A fuel p false [] = Some None /\ fuel <= meas A p) \/ exists r, tb_run P A fuel p false [] = done r /\ tb_ok P false A0 A p r.
Proof.
  intros P A0 A WP OK NI NU SD p [HV HF] Hn fuel.
  destruct (run_spec P A false (fun p => valid (aut_edges A) p /\ ap_front p < pd_n P) (valid (aut_edges A0))) with (fuel := fuel) (p := p) (post := false) (acc := @nil (rstep * apth nat)) as [K|[steps [p' [K1 [[K2 K3] [K4 [K5 K6]]]]]]]; auto.
  - intros p0 [H1 H2]. destruct (pre_body P WP A0 A NI NU SD p0 H1 H2) as [K|[s [p' [K1 [K2 [K3 [K4 [K5 K6]]]]]]]]; auto. right; left. exists s, p'. cbn. ands; auto.
  - right. eexists. split; [exact K1|]. cbn. constructor; cbn; auto.
    + eexists. split; [exact K6|]. cbn. tauto.
    + split; auto. unfold aut_final in *. rewrite K5. rewrite <- (ps_acc _ _ _ SD). auto.
Qed.

Lemma nth_error_final_app : forall (l : list bool) k q, nth_error (l ++ repeat false k) q = Some true -> nth_error l q = Some true.
Proof.
  intros l k q H. destruct (Nat.lt_ge_cases q (length l)) as [L|L]; [rewrite nth_error_app1 in H; auto|]. rewrite nth_error_app2 in H by auto.
  apply nth_error_In in H. apply repeat_spec in H. discriminate.
Qed.

Lemma post_tb : forall P A0 A, wf_pda P -> post_ok P A0 -> all_null A0 -> post_side P A0 A ->
  forall p, lang_path A p -> ap_front p < pd_n P -> forall fuel,
  (tb_run P A fuel p false [] = Some None /\ fuel <= meas A p) \/ exists r, tb_run P A fuel p false [] = done r /\ tb_ok P true A0 A p r.
Proof.
  intros P A0 A WP OK NU SD p [HV HF] Hn fuel. assert (HF': aut_final A0 (ap_end p)).
  { unfold aut_final in *. destruct (qs_acc _ _ _ SD) as [k Ek]. rewrite Ek in HF. eapply nth_error_final_app; eauto. }
  assert (LE: ap_end p < a_size A0) by (eapply nth_error_lt; exact HF').
  destruct (run_spec P A true (fun p => valid (aut_edges A) p /\ ap_front p < pd_n P /\ ap_end p < a_size A0) (valid (aut_edges A0))) with (fuel := fuel) (p := p) (post := false) (acc := @nil (rstep * apth nat)) as [K|[steps [p' [K1 [[K2 [K3 K7]] [K4 [K5 K6]]]]]]]; auto.
  - intros p0 [H1 [H2 H3]]. destruct (post_body P WP A0 A OK NU SD p0 H1 H2 H3) as [K|[[s [p' [K1 [K2 [K3 [K4 [K5 K6]]]]]]]|[p' [K1 [K2 [K3 [K4 [K5 K6]]]]]]]]; auto.
    + right; left. exists s, p'. cbn. ands; auto; lia.
    + right; right. exists p'. ands; auto; lia.
  - right. eexists. split; [exact K1|]. cbn. constructor; cbn; auto.
    + eexists. split; [exact K6|]. cbn. tauto.
    + split; auto. rewrite K5. auto.
Qed.

Lemma pre_labs : forall P A0 A, pre_side P A0 A -> labs_lt P (aut_edges A).
Proof. intros P A0 A SD q l q' H. destruct (ps_range _ _ _ SD _ H) as [_ [_ [x [H1 H2]]]]. cbn in H1. congruence. Qed.
Lemma post_labs : forall P A0 A, post_side P A0 A -> labs_lt P (aut_edges A).
Proof. intros P A0 A SD q l q' H. destruct (qs_range _ _ _ SD _ H) as [_ [_ H1]]. cbn in H1. auto. Qed.

(** The trace of configurations along a path. *)
Lemma trace_pre : forall P A0 A p r, labs_lt P (aut_edges A) -> valid (aut_edges A) p -> tb_ok P false A0 A p r ->
  forall tr, tr = decode_edges P p :: map (fun x => decode_edges P (snd x)) (fst (fst r)) ->
  snd r = false /\ is_run (pda_rules P) tr /\ hd_error tr = Some (pconf p) /\ aut_lang (pd_n P) A0 (last tr (pconf p)).
Proof.
  intros P A0 A p [[steps p'] b] HL HV [[Inv [H1 H2]] H3 H4 H5]. cbn [fst snd] in *. intros tr Htr. subst b. split; auto.
  assert (E: tr = pconf p :: map (fun x => pconf (snd x)) steps).
  { rewrite Htr. f_equal. { eapply decode_valid; eauto. } apply map_ext_in. intros x Hx. eapply decode_valid; eauto. apply H2. eapply chain_inv; eauto. }
  destruct (chain_pre_run _ _ _ _ _ H1) as [K1 K2]. rewrite E. ands; auto. rewrite K2. apply lang_path_lang; auto.
Qed.
Lemma rev_hd_last : forall A (l : list A) d, hd d (rev l) = last l d.
Proof. intros A l d. induction l as [|x l IH] using rev_ind; auto. rewrite rev_app_distr, last_last. auto. Qed.
Lemma hd_error_hd : forall A (l : list A) d, l <> [] -> hd_error l = Some (hd d l).
Proof. intros A [|x l] d H; [congruence|auto]. Qed.
Lemma trace_post : forall P A0 A p r, labs_lt P (aut_edges A) -> valid (aut_edges A) p -> tb_ok P true A0 A p r ->
  forall tr, tr = (if snd r then @rev config else fun l => l) (decode_edges P p :: map (fun x => decode_edges P (snd x)) (fst (fst r))) ->
  is_run (pda_rules P) tr /\ aut_lang (pd_n P) A0 (hd (pconf p) tr) /\ last tr (pconf p) = pconf p /\ tr <> [].
Proof.
  intros P A0 A p [[steps p'] b] HL HV [[Inv [H1 H2]] H3 H4 H5]. cbn [fst snd andb] in *. intros tr Htr.
  assert (E: tr = rev (pconf p :: map (fun x => pconf (snd x)) steps)).
  { assert (E0: decode_edges P p :: map (fun x => decode_edges P (snd x)) steps = pconf p :: map (fun x => pconf (snd x)) steps).
    { f_equal. { eapply decode_valid; eauto. } apply map_ext_in. intros x Hx. eapply decode_valid; eauto. apply H2. eapply chain_inv; eauto. }
    rewrite Htr, E0. subst b. destruct steps; auto. }
  destruct (chain_post_run _ _ _ _ _ H1) as [K1 K2]. rewrite E. ands; auto.
  - rewrite K2. apply lang_path_lang; auto.
  - cbn [rev]. apply last_last.
  - cbn [rev]. intros K. apply app_eq_nil in K. destruct K; discriminate.
Qed.

(** ** Paths of an automaton without epsilon edges *)
(** [path] is an accepting path for the configuration [(q, w)]. *)
Definition accepting_path (A : aut) (q : nat) (w path : list nat) : Prop :=
  spath (aut_edges A) path (map Some w) /\ hd_error path = Some q /\ aut_final A (last path 0).
Lemma lang_path_accepting : forall A p, (forall q q', ~ aut_edges A q None q') -> lang_path A p ->
  accepting_path A (ap_front p) (snd (ap_path_and_stack p)) (fst (ap_path_and_stack p)) /\ pconf p = (ap_front p, snd (ap_path_and_stack p)).
Proof.
  intros A p NE [H1 H2]. unfold pconf. rewrite ap_front_pfront. unfold accepting_path, ap_path_and_stack, ap_stack. destruct p as [e es]. unfold valid in H1. cbn [fst snd ap_end ap_edges] in *.
  rewrite last_last. rename H2 into HFIN.
  assert (G: spath (aut_edges A) (flat_map (fun e0 : option nat * nat => match fst e0 with Some _ => [snd e0] | None => [] end) es ++ [e])
      (map Some (flat_map (fun e0 : option nat * nat => match fst e0 with Some l => [l] | None => [] end) es)) /\
    hd_error (flat_map (fun e0 : option nat * nat => match fst e0 with Some _ => [snd e0] | None => [] end) es ++ [e]) = Some (pfront e es) /\
    word (map fst es) = flat_map (fun e0 : option nat * nat => match fst e0 with Some l => [l] | None => [] end) es).
  { induction es as [|[l s] es IH]; [cbn; ands; auto; constructor|]. destruct H1 as [H1 H2]. destruct (IH H2) as [I1 [I2 I3]]. destruct l as [l|]; [|destruct (NE _ _ H1)].
    cbn [flat_map fst snd app]. ands; auto; [|cbn; f_equal; auto].
    destruct (flat_map _ es ++ [e]) as [|y ys] eqn:EY in *; [discriminate|]. inversion I2; subst y. cbn [map]. constructor; auto. }
  destruct G as [G1 [G2 G3]]. ands; auto. rewrite G3; auto.
Qed.
Lemma pre_no_eps : forall P A, pre_ok P A -> forall q q', ~ aut_edges A q None q'.
Proof. intros P A OK q q' H. destruct (po_range _ _ OK _ _ _ H) as [_ [_ [x [K _]]]]. discriminate. Qed.
Lemma pre_side_no_eps : forall P A0 A, pre_side P A0 A -> forall q q', ~ aut_edges A q None q'.
Proof. intros P A0 A SD q q' H. destruct (ps_range _ _ _ SD _ H) as [_ [_ [x [K _]]]]. discriminate. Qed.

(** ** The trace functions of the solver *)
(** A run of [R] from the configurations [L1] to those of [L2]. *)
Definition run_between (R : pds) (L1 L2 : config -> Prop) (tr : list config) : Prop :=
  is_run R tr /\ exists c, hd_error tr = Some c /\ L1 c /\ L2 (last tr c).

Section Traces.
  Variable P : pda.
  Hypothesis WP : wf_pda P.
  Let n := pd_n P.
  Let R := pda_rules P.
  Variables (init fin : aut) (I' : inst) (b : bool).
  Let good := fun tr => if b then run_between R (aut_lang n init) (aut_lang n fin) tr else tr = [].

  (** The rules lead from an accepted configuration of one automaton to one of the other, along the reported paths. *)
  Definition rtrace_ok (init fin : aut) (t : rtrace) : Prop :=
    match t with (q, rules, w1, w2, pa1, pa2) =>
      exists q2, rule_run P (q, w1) rules (q2, w2) /\ accepting_path init q w1 pa1 /\ accepting_path fin q2 w2 pa2 end.

  Section Pre.
    Hypothesis OK : pre_ok P fin.
    Hypothesis NI : no_in P fin.
    Hypothesis NU : all_null fin.
    Hypothesis LI : n <= a_size init.
    Hypothesis NE : forall q q', ~ aut_edges init q None q'.
    Hypothesis HO : pre_out P init fin I' b.
    Let SD := pu_side _ _ _ _ _ HO.
    Let LF : n <= a_size (in_fin I').
    Proof. unfold a_size. rewrite (ps_acc _ _ _ SD). apply (po_n _ _ OK). Qed.

    Lemma get_trace_pre_spec : answers (fun fuel => get_trace_pre P fuel I') good.
    Proof.
      unfold get_trace_pre, get_trace, good. destruct (prod_find P (in_fin I') init false (in_prod I') LF LI (pu_base _ _ _ _ _ HO) nat (fun id => fst (orig_pair P (in_prod I') id))) as [r0 [K1 K2]].
      rewrite (pu_acc _ _ _ _ _ HO). destruct K2 as [[Ka ->]|[Ka [qs [ls [-> [K3 [K4 K5]]]]]]]; rewrite Ka.
      - split; [|exists (n + a_size (pr_aut (in_prod I')))]; intros fuel; [|intros L]; destruct (K1 fuel) as [[K KL]|K]; rewrite K; auto; try discriminate; [|fold n in KL; lia]. right. eexists; split; [reflexivity|auto].
      - destruct (p1_spec P _ _ _ _ LF LI (pu_base _ _ _ _ _ HO) qs ls K3 K4 K5 NE) as [V1 [V2 V3]]. set (p := p1 P (in_prod I') qs ls) in *.
        assert (HF: ap_front p < n) by (apply (f_equal fst) in V2; cbn in V2; rewrite V2; exact K4).
        assert (TB := pre_tb P fin (in_fin I') WP OK NI NU SD p (conj V1 V3) HF).
        split.
        + intros fuel. destruct (K1 fuel) as [[K _]|K]; rewrite K; auto. cbv beta iota delta [done]. change (mk_apth _ _) with p. unfold get_trace_path.
          destruct (TB fuel) as [[T _]|[r [T TK]]]; rewrite T; auto. destruct r as [[steps p'] bb]. right. eexists. split; [reflexivity|].
          destruct (trace_pre P fin (in_fin I') p _ (pre_labs _ _ _ SD) V1 TK _ eq_refl) as [E1 [E2 [E3 E4]]]. cbn [fst snd] in *. subst bb.
          split; [exact E2|]. exists (pconf p). ands; auto. rewrite V2. apply (langs P _ _ _ _ (pu_base _ _ _ _ _ HO) qs ls K3 K4 K5).
        + exists (n + a_size (pr_aut (in_prod I')) + Datatypes.S (meas (in_fin I') p)). intros fuel L. destruct (K1 fuel) as [[K KL]|K]; rewrite K; [fold n in KL; lia|].
          cbv beta iota delta [done]. change (mk_apth _ _) with p. unfold get_trace_path. destruct (TB fuel) as [[T TL]|[r [T TK]]]; rewrite T; [lia|]. destruct r as [[steps p'] bb]. discriminate.
    Qed.

    Lemma get_rule_trace_pre_spec : answers (fun fuel => get_rule_trace_pre P fuel I') (fun r => if b then exists t, r = Some t /\ rtrace_ok init fin t else r = None).
    Proof.
      unfold get_rule_trace_pre, get_rule_trace. destruct (prod_find P (in_fin I') init false (in_prod I') LF LI (pu_base _ _ _ _ _ HO) _ (orig_pair P (in_prod I'))) as [r0 [K1 K2]].
      rewrite (pu_acc _ _ _ _ _ HO). destruct K2 as [[Ka ->]|[Ka [qs [ls [-> [K3 [K4 K5]]]]]]]; rewrite Ka.
      - split; [|exists (n + a_size (pr_aut (in_prod I')))]; intros fuel; [|intros L]; destruct (K1 fuel) as [[K KL]|K]; rewrite K; auto; try discriminate; [|fold n in KL; lia]. right. eexists; split; [reflexivity|auto].
      - destruct (p1_spec P _ _ _ _ LF LI (pu_base _ _ _ _ _ HO) qs ls K3 K4 K5 NE) as [V1 [V2 V3]].
        destruct (p2_steps P _ _ _ _ LF LI (pu_base _ _ _ _ _ HO) qs ls K3 K4 K5 NE) as [W1 [W2 [W3 W4]]].
        cbn [fst snd] in *. set (p := p1 P (in_prod I') qs ls) in *. set (p' := p2 P (in_prod I') qs ls) in *.
        assert (HF: ap_front p = hd 0 qs) by (apply (f_equal fst) in V2; exact V2).
        assert (HF': ap_front p < n) by (rewrite HF; auto).
        assert (TB := pre_tb P fin (in_fin I') WP OK NI NU SD p (conj V1 V3) HF').
        split.
        + intros fuel. destruct (K1 fuel) as [[K _]|K]; rewrite K; auto. cbv beta iota delta [done]. unfold rule_trace_paths. rewrite split_paths. cbn [fst snd]. fold p p'.
          destruct (TB fuel) as [[T _]|[r [T TK]]]; rewrite T; auto. destruct r as [[steps p''] bb]. right. destruct TK as [[Inv [C1 C2]] C3 C4 C5]. cbn [fst snd andb] in *. subst bb.
          eexists. split; [reflexivity|]. eexists. split; [reflexivity|]. unfold rtrace_ok.
          destruct (lang_path_accepting fin p'' (pre_no_eps _ _ OK) C3) as [D1 D2]. exists (ap_front p'').
          assert (FR: fst (ap_front (mk_apth (last (map (orig_pair P (in_prod I')) qs) (orig_pair P (in_prod I') 0)) (combine ls (map (orig_pair P (in_prod I')) qs)))) = hd 0 qs).
          { destruct qs as [|q qs]; [inversion K3|]. destruct ls; cbn [map combine ap_front ap_edges hd]; [inversion K3; subst; cbn|]; rewrite orig_small; auto. }
          rewrite FR. ands; auto. 2: { split; auto. }
          rewrite W4, <- D2, <- V2. eapply chain_pre_rules; eauto.
        + exists (n + a_size (pr_aut (in_prod I')) + Datatypes.S (meas (in_fin I') p)). intros fuel L. destruct (K1 fuel) as [[K KL]|K]; rewrite K; [fold n in KL; lia|].
          cbv beta iota delta [done]. unfold rule_trace_paths. rewrite split_paths. cbn [fst snd]. fold p p'. destruct (TB fuel) as [[T TL]|[r [T TK]]]; rewrite T; [lia|]. destruct r as [[steps p''] bb].
          destruct TK as [_ _ _ C5]. cbn in C5. subst bb. discriminate.
    Qed.
  End Pre.

  Lemma front_hd : forall qs ls, spath (aut_edges (pr_aut (in_prod I'))) qs ls -> hd 0 qs < n ->
    fst (ap_front (mk_apth (last (map (orig_pair P (in_prod I')) qs) (orig_pair P (in_prod I') 0)) (combine ls (map (orig_pair P (in_prod I')) qs)))) = hd 0 qs.
  Proof.
    intros qs ls K3 K4. destruct qs as [|q qs]; [inversion K3|]. destruct ls; cbn [map combine ap_front ap_edges hd]; [inversion K3; subst; cbn|]; rewrite orig_small; auto.
  Qed.
  Lemma rule_run_from : forall c s ss c', rule_run P c (s :: ss) c' -> rs_from s = fst c.
  Proof.
    intros c s ss c' [c1 [[sr [H1 [H2 H3]]] _]]. unfold rs_srule in H1. destruct (rs_lab s); inversion H1; subst sr. inversion H3; subst; auto.
  Qed.
  Lemma last_indep : forall A (l : list A) d d', l <> [] -> last l d = last l d'.
  Proof. intros A l d d' H. induction l as [|x l IH]; [congruence|]. destruct l; auto. apply IH. congruence. Qed.

  Section Post.
    Hypothesis OK : post_ok P init.
    Hypothesis NU : all_null init.
    Hypothesis LS : n <= a_size fin.
    Hypothesis NE : forall q q', ~ aut_edges fin q None q'.
    Hypothesis HO : post_out P init fin I' b.
    Let SD := qu_side _ _ _ _ _ HO.
    Let LF : n <= a_size (in_init I').
    Proof. unfold a_size. destruct (qs_acc _ _ _ SD) as [k Ek]. rewrite Ek, app_length. pose proof (qk_n _ _ OK) as K. unfold a_size in K. fold n in K. lia. Qed.

    Lemma get_trace_post_spec : answers (fun fuel => get_trace_post P fuel I') good.
    Proof.
      unfold get_trace_post, get_trace, good. destruct (prod_find P (in_init I') fin false (in_prod I') LF LS (qu_base _ _ _ _ _ HO) nat (fun id => fst (orig_pair P (in_prod I') id))) as [r0 [K1 K2]].
      rewrite (qu_acc _ _ _ _ _ HO). destruct K2 as [[Ka ->]|[Ka [qs [ls [-> [K3 [K4 K5]]]]]]]; rewrite Ka.
      - split; [|exists (n + a_size (pr_aut (in_prod I')))]; intros fuel; [|intros L]; destruct (K1 fuel) as [[K KL]|K]; rewrite K; auto; try discriminate; [|fold n in KL; lia]. right. eexists; split; [reflexivity|auto].
      - destruct (p1_spec P _ _ _ _ LF LS (qu_base _ _ _ _ _ HO) qs ls K3 K4 K5 NE) as [V1 [V2 V3]]. set (p := p1 P (in_prod I') qs ls) in *.
        assert (HF: ap_front p < n) by (apply (f_equal fst) in V2; cbn in V2; rewrite V2; exact K4).
        assert (TB := post_tb P init (in_init I') WP OK NU SD p (conj V1 V3) HF).
        split.
        + intros fuel. destruct (K1 fuel) as [[K _]|K]; rewrite K; auto. cbv beta iota delta [done]. change (mk_apth _ _) with p. unfold get_trace_path.
          destruct (TB fuel) as [[T _]|[r [T TK]]]; rewrite T; auto. destruct r as [[steps p'] bb]. right. eexists. split; [reflexivity|].
          destruct (trace_post P init (in_init I') p _ (post_labs _ _ _ SD) V1 TK _ eq_refl) as [E1 [E2 [E3 E4]]]. cbn [fst snd] in *.
          match goal with |- run_between _ _ _ ?t => replace t with ((if bb then @rev config else fun l => l) (decode_edges P p :: map (fun x => decode_edges P (snd x)) steps)) by (destruct bb; auto) end.
          split; [exact E1|]. eexists. split; [apply (hd_error_hd _ _ (pconf p)); auto|]. split; auto. rewrite (last_indep _ _ _ (pconf p)), E3, V2 by auto.
          apply (langs P _ _ _ _ (qu_base _ _ _ _ _ HO) qs ls K3 K4 K5).
        + exists (n + a_size (pr_aut (in_prod I')) + Datatypes.S (meas (in_init I') p)). intros fuel L. destruct (K1 fuel) as [[K KL]|K]; rewrite K; [fold n in KL; lia|].
          cbv beta iota delta [done]. change (mk_apth _ _) with p. unfold get_trace_path. destruct (TB fuel) as [[T TL]|[r [T TK]]]; rewrite T; [lia|]. destruct r as [[steps p'] bb]. discriminate.
    Qed.

    (** With an empty rule sequence the two paths (and the equal stacks) are exchanged. *)
    Lemma get_rule_trace_post_spec : answers (fun fuel => get_rule_trace_post P fuel I')
      (fun r => if b then exists t, r = Some t /\ match t with (q, rules, w1, w2, pa1, pa2) => rtrace_ok init fin (if is_nil rules then (q, rules, w1, w2, pa2, pa1) else t) end else r = None).
    Proof.
      unfold get_rule_trace_post, get_rule_trace. destruct (prod_find P (in_init I') fin false (in_prod I') LF LS (qu_base _ _ _ _ _ HO) _ (orig_pair P (in_prod I'))) as [r0 [K1 K2]].
      rewrite (qu_acc _ _ _ _ _ HO). destruct K2 as [[Ka ->]|[Ka [qs [ls [-> [K3 [K4 K5]]]]]]]; rewrite Ka.
      - split; [|exists (n + a_size (pr_aut (in_prod I')))]; intros fuel; [|intros L]; destruct (K1 fuel) as [[K KL]|K]; rewrite K; auto; try discriminate; [|fold n in KL; lia]. right. eexists; split; [reflexivity|auto].
      - destruct (p1_spec P _ _ _ _ LF LS (qu_base _ _ _ _ _ HO) qs ls K3 K4 K5 NE) as [V1 [V2 V3]].
        destruct (p2_steps P _ _ _ _ LF LS (qu_base _ _ _ _ _ HO) qs ls K3 K4 K5 NE) as [W1 [W2 [W3 W4]]].
        cbn [fst snd] in *. set (p := p1 P (in_prod I') qs ls) in *. set (p' := p2 P (in_prod I') qs ls) in *.
        assert (HF: ap_front p = hd 0 qs) by (apply (f_equal fst) in V2; exact V2).
        assert (HF': ap_front p < n) by (rewrite HF; auto).
        assert (TB := post_tb P init (in_init I') WP OK NU SD p (conj V1 V3) HF').
        assert (NEI: forall q q', ~ aut_edges init q None q') by (apply (pre_no_eps P); apply post_ok_pre_ok; auto).
        split.
        + intros fuel. destruct (K1 fuel) as [[K _]|K]; rewrite K; auto. cbv beta iota delta [done]. unfold rule_trace_paths. rewrite split_paths. cbn [fst snd]. fold p p'.
          destruct (TB fuel) as [[T _]|[r [T TK]]]; rewrite T; auto. destruct r as [[steps p''] bb]. right. destruct TK as [[Inv [C1 C2]] C3 C4 C5]. cbn [fst snd andb] in *.
          destruct (lang_path_accepting init p'' NEI C3) as [D1 D2]. apply chain_post_rules in C1.
          destruct steps as [|x steps].
          * cbn in C5, C1. subst bb. rewrite V2, D2 in C1. assert (E1 := f_equal fst C1). assert (E2 := f_equal snd C1). cbn [fst snd] in E1, E2. symmetry in E1, E2. eexists. split; [reflexivity|]. eexists. split; [reflexivity|]. cbn [map is_nil]. unfold rtrace_ok. rewrite front_hd by auto. exists (hd 0 qs). ands.
            -- cbn [rule_run]. rewrite W4, E2. auto.
            -- rewrite W4, E1, E2. auto.
            -- rewrite <- E2, <- W4. split; auto.
          * cbn in C5. subst bb. destruct (rev (map fst (x :: steps))) as [|s ss] eqn:ER.
            { exfalso. cbn in ER. apply app_eq_nil in ER. destruct ER; discriminate. }
            cbv beta iota delta [done]. rewrite ER. eexists. split; [reflexivity|]. eexists. split; [reflexivity|]. cbn [is_nil]. unfold rtrace_ok. exists (hd 0 qs). assert (FR := rule_run_from _ _ _ _ C1). rewrite FR. cbn [fst].
            ands. { rewrite W4, <- V2. rewrite D2 in C1. exact C1. } { exact D1. } { split; auto. }
        + exists (n + a_size (pr_aut (in_prod I')) + Datatypes.S (meas (in_init I') p)). intros fuel L. destruct (K1 fuel) as [[K KL]|K]; rewrite K; [fold n in KL; lia|].
          cbv beta iota delta [done]. unfold rule_trace_paths. rewrite split_paths. cbn [fst snd]. fold p p'. destruct (TB fuel) as [[T TL]|[r [T TK]]]; rewrite T; [lia|]. destruct r as [[steps p''] bb].
          destruct bb; cbv beta iota zeta delta [done]; [|discriminate]. destruct (rev (map fst steps)) eqn:ER; try discriminate.
    Qed.
  End Post.

  Section Dual.
    Hypothesis OKI : post_ok P init.
    Hypothesis NUI : all_null init.
    Hypothesis OKF : pre_ok P fin.
    Hypothesis NIF : no_in P fin.
    Hypothesis NUF : all_null fin.
    Hypothesis HO : dual_out P init fin I' b.
    Let SI := du_init _ _ _ _ _ HO.
    Let SF := du_fin _ _ _ _ _ HO.
    Let LI : n <= a_size (in_init I').
    Proof. unfold a_size. destruct (qs_acc _ _ _ SI) as [k Ek]. rewrite Ek, app_length. pose proof (qk_n _ _ OKI) as K. unfold a_size in K. fold n in K. lia. Qed.
    Let LF : n <= a_size (in_fin I').
    Proof. unfold a_size. rewrite (ps_acc _ _ _ SF). apply (po_n _ _ OKF). Qed.
    Let B := du_base _ _ _ _ _ HO.
    Let NE := pre_side_no_eps _ _ _ SF.
    Let NF : forall q q', aut_edges (in_init I') q None q' -> q < pd_n P.
    Proof. intros q q' H. apply (qs_range _ _ _ SI) in H. apply H. Qed.
    Let NI : forall q l q', aut_edges (in_init I') q l q' -> pd_n P <= q'.
    Proof. intros q l q' H. apply (qs_range _ _ _ SI) in H. apply H. Qed.

    Lemma get_trace_dual_spec : answers (fun fuel => get_trace_dual P fuel I') good.
    Proof.
      unfold get_trace_dual, good. destruct (prod_find P (in_init I') (in_fin I') true (in_prod I') LI LF B _ (orig_pair P (in_prod I'))) as [r0 [K1 K2]].
      rewrite (du_acc _ _ _ _ _ HO). destruct K2 as [[Ka ->]|[Ka [qs [ls [-> [K3 [K4 K5]]]]]]]; rewrite Ka.
      - split; [|exists (n + a_size (pr_aut (in_prod I')))]; intros fuel; [|intros L]; destruct (K1 fuel) as [[K KL]|K]; rewrite K; auto; try discriminate; [|fold n in KL; lia]. right. eexists; split; [reflexivity|auto].
      - destruct (p1_spec P _ _ _ _ LI LF B qs ls K3 K4 K5 NE) as [V1 [V2 V3]]. destruct (p2_spec P _ _ _ _ LI LF B qs ls K3 K4 K5 NE NF NI) as [f [F0 [F1 [F2 F3]]]].
        set (p := p1 P (in_prod I') qs ls) in *.
        assert (HF: ap_front p < n) by (apply (f_equal fst) in V2; cbn in V2; rewrite V2; exact K4).
        assert (HF': ap_front f < n) by (apply (f_equal fst) in F2; cbn in F2; rewrite F2; exact K4).
        assert (TB := post_tb P init (in_init I') WP OKI NUI SI p (conj V1 V3) HF).
        assert (TF := pre_tb P fin (in_fin I') WP OKF NIF NUF SF f (conj F1 F3) HF').
        assert (G: forall fuel, (get_trace_path P (in_init I') fuel p = Some None /\ fuel <= meas (in_init I') p) \/ exists t1, get_trace_path P (in_init I') fuel p = done t1 /\
            is_run R t1 /\ aut_lang n init (hd (pconf p) t1) /\ last t1 (pconf p) = pconf p /\ t1 <> []).
        { intros fuel. unfold get_trace_path. destruct (TB fuel) as [[T TL]|[r [T TK]]]; rewrite T; auto. destruct r as [[steps p'] bb]. right. eexists. split; [reflexivity|].
          destruct (trace_post P init (in_init I') p _ (post_labs _ _ _ SI) V1 TK _ eq_refl) as [E1 [E2 [E3 E4]]]. cbn [fst snd] in *. destruct bb; ands; auto. }
        assert (GF: forall fuel, (get_trace_path P (in_fin I') fuel f = Some None /\ fuel <= meas (in_fin I') f) \/ exists t2, get_trace_path P (in_fin I') fuel f = done t2 /\
            is_run R t2 /\ hd_error t2 = Some (pconf f) /\ aut_lang n fin (last t2 (pconf f))).
        { intros fuel. unfold get_trace_path. destruct (TF fuel) as [[T TL]|[r [T TK]]]; rewrite T; auto. destruct r as [[steps p'] bb]. right. eexists. split; [reflexivity|].
          destruct (trace_pre P fin (in_fin I') f _ (pre_labs _ _ _ SF) F1 TK _ eq_refl) as [E1 [E2 [E3 E4]]]. cbn [fst snd] in *. subst bb. ands; auto. }
        assert (RES: forall t1 t2, is_run R t1 -> aut_lang n init (hd (pconf p) t1) -> last t1 (pconf p) = pconf p -> t1 <> [] ->
           is_run R t2 -> hd_error t2 = Some (pconf f) -> aut_lang n fin (last t2 (pconf f)) ->
           exists tr, match rev t1, t2 with c1 :: _, c2 :: t2' => if (fst c1 =? fst c2) && (length (snd c1) =? length (snd c2)) then done (t1 ++ t2') else None | _, _ => None end = done tr /\
           run_between R (aut_lang n init) (aut_lang n fin) tr).
        { intros t1 t2 A1 A2 A3 A4 B1 B2 B3. destruct t2 as [|c2 t2]; [discriminate|]. inversion B2; subst c2. destruct (rev t1) as [|c1 t1'] eqn:ER.
          { exfalso. apply A4. rewrite <- (rev_involutive t1), ER. auto. }
          assert (C1: c1 = pconf f). { rewrite <- (rev_hd_last _ t1 (pconf p)), ER in A3. cbn in A3. congruence. }
          rewrite C1, !Nat.eqb_refl. cbn [andb]. eexists. split; [reflexivity|].
          assert (RUN: forall t1 t2 c, t1 <> [] -> is_run R t1 -> last t1 c = c -> is_run R (c :: t2) -> is_run R (t1 ++ t2) /\ last (t1 ++ t2) c = last (c :: t2) c).
          { clear. intros t1. induction t1 as [|x t1 IH]; intros t2 c H H1 H2 H3; [congruence|]. destruct t1 as [|y t1].
            - cbn in H2. subst x. cbn [app]. auto.
            - destruct H1 as [H1 H4]. destruct (IH t2 c) as [I1 I2]; auto; try congruence. cbn [app]. split; [split; auto|]. rewrite <- I2. auto. }
          destruct (RUN t1 t2 (pconf f)) as [R1 R2]; auto. { rewrite F2, <- V2. auto. }
          split; auto. destruct t1 as [|x t1]; [congruence|]. exists x. ands; auto.
          rewrite (last_indep _ _ x (pconf f)) by (cbn; congruence). rewrite R2. auto. }
        split.
        + intros fuel. destruct (K1 fuel) as [[K _]|K]; rewrite K; auto. cbv beta iota delta [done]. rewrite split_paths. cbn [fst snd]. fold p. rewrite F0. cbn [obind].
          destruct (G fuel) as [[T TL]|[t1 [T [A1 [A2 [A3 A4]]]]]]; rewrite T; [destruct (GF fuel) as [[T' TL']|[t2 [T' _]]]; rewrite T'; auto|].
          destruct (GF fuel) as [[T' TL']|[t2 [T' [B1 [B2 B3]]]]]; rewrite T'; auto. right. destruct (RES t1 t2) as [tr [R1 R2]]; auto. exists tr. split; auto.
        + exists (n + a_size (pr_aut (in_prod I')) + Datatypes.S (meas (in_init I') p) + Datatypes.S (meas (in_fin I') f)). intros fuel L. destruct (K1 fuel) as [[K KL]|K]; rewrite K; [fold n in KL; lia|].
          cbv beta iota delta [done]. rewrite split_paths. cbn [fst snd]. fold p. rewrite F0. cbn [obind].
          destruct (G fuel) as [[T TL]|[t1 [T [A1 [A2 [A3 A4]]]]]]; rewrite T; [lia|]. destruct (GF fuel) as [[T' TL']|[t2 [T' [B1 [B2 B3]]]]]; rewrite T'; [lia|].
          destruct (RES t1 t2) as [tr [R1 R2]]; auto. cbv beta iota delta [done] in *. rewrite R1. discriminate.
    Qed.

    (** The call is undefined when there is no trace or when no rule is needed; otherwise the result is right. *)
    Lemma get_rule_trace_dual_spec : forall fuel, get_rule_trace_dual P fuel I' = Some None \/
      (get_rule_trace_dual P fuel I' = None /\ (b = false \/ exists c, aut_lang n init c /\ aut_lang n fin c)) \/
      exists t, get_rule_trace_dual P fuel I' = done t /\ b = true /\ rtrace_ok init fin t.
    Proof.
      intros fuel. unfold get_rule_trace_dual. destruct (prod_find P (in_init I') (in_fin I') true (in_prod I') LI LF B _ (orig_pair P (in_prod I'))) as [r0 [K1 K2]].
      rewrite (du_acc _ _ _ _ _ HO). destruct K2 as [[Ka ->]|[Ka [qs [ls [-> [K3 [K4 K5]]]]]]]; rewrite Ka.
      - destruct (K1 fuel) as [[K _]|K]; rewrite K; auto.
      - destruct (p1_spec P _ _ _ _ LI LF B qs ls K3 K4 K5 NE) as [V1 [V2 V3]]. destruct (p2_spec P _ _ _ _ LI LF B qs ls K3 K4 K5 NE NF NI) as [f [F0 [F1 [F2 F3]]]].
        set (p := p1 P (in_prod I') qs ls) in *.
        assert (HF: ap_front p < n) by (apply (f_equal fst) in V2; cbn in V2; rewrite V2; exact K4).
        assert (HF': ap_front f < n) by (apply (f_equal fst) in F2; cbn in F2; rewrite F2; exact K4).
        assert (NEI: forall q q', ~ aut_edges init q None q') by (apply (pre_no_eps P); apply post_ok_pre_ok; auto).
        destruct (K1 fuel) as [[K _]|K]; rewrite K; auto. cbv beta iota delta [done]. rewrite split_paths. cbn [fst snd]. fold p. rewrite F0. cbn [obind]. unfold get_trace_stack_path.
        destruct (post_tb P init (in_init I') WP OKI NUI SI p (conj V1 V3) HF fuel) as [[T _]|[[[steps p'] bb] [T [[Inv [C1 C2]] C3 C4 C5]]]]; rewrite T;
        destruct (pre_tb P fin (in_fin I') WP OKF NIF NUF SF f (conj F1 F3) HF' fuel) as [[T' _]|[[[steps' f'] bb'] [T' [[Inv' [D1 D2]] D3 D4 D5]]]]; rewrite T'; auto.
        right. cbv beta iota delta [done]. cbn [fst snd andb] in *. subst bb'.
        apply chain_post_rules in C1. apply chain_pre_rules in D1.
        replace (if bb then rev (map fst steps) else map fst steps) with (rev (map fst steps)) by (subst bb; destruct steps; auto).
        assert (RR: rule_run P (pconf p') (rev (map fst steps) ++ map fst steps') (pconf f')) by (eapply rule_run_app; eauto; rewrite V2, <- F2; auto).
        destruct (rev (map fst steps) ++ map fst steps') as [|s ss] eqn:ES.
        + left. split; auto. right. cbn in RR. exists (pconf p'). split; [|rewrite RR]; apply lang_path_lang; auto.
        + right. eexists. split; [reflexivity|]. split; auto. destruct (lang_path_accepting init p' NEI C3) as [X1 X2]. destruct (lang_path_accepting fin f' (pre_no_eps _ _ OKF) D3) as [Y1 Y2].
          unfold rtrace_ok. exists (ap_front f'). rewrite (rule_run_from _ _ _ _ RR). cbn [fst pconf]. rewrite <- X2, <- Y2. ands; auto.
    Qed.
  End Dual.
End Traces.

(** ** Traces for one configuration *)
Lemma accept_path_loop_mono : forall A stack f f' path ws r, accept_path_loop A stack f path ws = done r -> f <= f' -> accept_path_loop A stack f' path ws = done r.
Proof.
  intros A stack f. induction f as [|f IH]; intros f' path ws r H L; destruct ws as [|[q i] ws]; destruct f' as [|f']; auto; try lia; try discriminate.
  cbn [accept_path_loop] in *. destruct (q <? a_size A); [|discriminate]. destruct (nth_error stack i); [|discriminate]. cbn [obind] in *.
  destruct (eloop _ _ _) as [[ws'|p]|]; cbn [obind] in *; auto. apply IH; auto. lia.
Qed.
Lemma accept_path_mono : forall A f f' q w r, accept_path A f q w = done r -> f <= f' -> accept_path A f' q w = done r.
Proof. intros A f f' q w r H L. unfold accept_path in *. destruct w; auto. eapply accept_path_loop_mono; eauto. Qed.

Lemma meas_bound : forall A p, meas A p <= length (ap_edges p) * Nat.pow 3 (length (a_edges A)).
Proof.
  intros A [e es]. unfold meas. cbn [ap_end ap_edges]. induction es as [|[l s] es IH]; cbn [pmeas length]; [lia|]. unfold emeas. pose proof (pow3 _ _ (age_le (a_edges A) (mk_edge s l (pfront e es)))). lia.
Qed.

Lemma config_trace : forall P A, aut_wf A -> forall Q state stack, state < pd_n P -> pd_n P <= a_size A -> 
  (forall p, lang_path A p -> pconf p = (state, stack) -> (forall fuel, (get_trace_path P A fuel p = Some None /\ fuel <= meas A p) \/ exists tr, get_trace_path P A fuel p = done tr /\ Q tr)) ->
  ((exists f, npath (aut_edges A) state stack f /\ aut_final A f) -> answers (fun fuel => get_trace_config P fuel A state stack) Q) /\
  (~ (exists f, npath (aut_edges A) state stack f /\ aut_final A f) -> (forall fuel, get_trace_config P fuel A state stack = Some None \/ get_trace_config P fuel A state stack = None) /\
     forall fuel, Nat.pow (S (a_size A)) (length stack) <= fuel -> get_trace_config P fuel A state stack = None).
Proof.
  intros P A W Q state stack Hs Ha HP. assert (HS: state < a_size A) by lia. set (bd := Nat.pow (S (a_size A)) (length stack)). split.
  - intros Hacc. destruct (accept_path_spec A W bd state stack HS) as [[K|[p [K1 K2]]] KB]; [destruct (KB (le_n _) K)|].
    destruct K2 as [[K2 [K3 K4]]|[_ K2]]; [|contradiction].
    assert (LEN := spath_length _ _ _ K2). rewrite map_length in LEN.
    assert (MK: ap_make p (map Some stack) = Some (mk_apth (last p 0) (combine (map Some stack) p))) by (apply ap_make_spec; rewrite map_length; lia).
    set (ap := mk_apth (last p 0) (combine (map Some stack) p)) in *.
    destruct (spath_pvalid (aut_edges A) (aut_edges A) (fun q => q) p (map Some stack) 0 K2) as [V1 V2]; auto. rewrite map_id in V1, V2.
    assert (LP: lang_path A ap) by (split; auto).
    assert (PC: pconf ap = (state, stack)).
    { unfold pconf. rewrite ap_front_pfront. unfold ap, ap_stack. cbn [ap_end ap_edges]. rewrite V2, K3. f_equal. rewrite stack_combine by (rewrite map_length; lia). clear. unfold word. induction stack; cbn; congruence. }
    assert (G := HP ap LP PC).
    assert (AP: forall fuel, (accept_path A fuel state stack = Some None /\ fuel < bd) \/ accept_path A fuel state stack = done p).
    { intros fuel. destruct (Nat.lt_ge_cases fuel bd) as [L|L]; [|right; eapply accept_path_mono; eauto]. destruct (accept_path_spec A W fuel state stack HS) as [[K|[p' [K5 _]]] _]; auto.
      right. rewrite K5. assert (K' := accept_path_mono _ _ bd _ _ _ K5). rewrite K' in K1 by lia. auto. }
    unfold get_trace_config. split.
    + intros fuel. destruct (AP fuel) as [[K _]|K]; rewrite K; auto. cbv beta iota delta [done]. rewrite MK. cbn [obind]. destruct (G fuel) as [[T _]|[tr [T1 T2]]]; auto. right; eauto.
    + exists (bd + S (meas A ap)). intros fuel L. destruct (AP fuel) as [[K KL]|K]; rewrite K; [lia|]. cbv beta iota delta [done]. rewrite MK. cbn [obind].
      destruct (G fuel) as [[T TL]|[tr [T1 T2]]]; [lia|rewrite T1; discriminate].
  - intros Hacc. assert (G: forall fuel, accept_path A fuel state stack = Some None \/ accept_path A fuel state stack = done []).
    { intros fuel. destruct (accept_path_spec A W fuel state stack HS) as [[K|[p [K1 K2]]] _]; auto. destruct K2 as [[K2 [K3 K4]]|[-> _]]; auto. exfalso. apply Hacc. exists (last p 0). split; auto.
      destruct p as [|a p]; [inversion K2|]. cbn in K3. subst a. apply (spath_npath _ _ _ K2 0). }
    unfold get_trace_config. split.
    + intros fuel. destruct (G fuel) as [K|K]; rewrite K; auto.
    + intros fuel L. destruct (accept_path_spec A W fuel state stack HS) as [_ KB]. destruct (G fuel) as [K|K]; [destruct (KB L K)|]. rewrite K. auto.
Qed.

Lemma config_trace_pre : forall P A0 A, wf_pda P -> pre_ok P A0 -> no_in P A0 -> all_null A0 -> pre_side P A0 A -> forall state stack, state < pd_n P ->
  (aut_lang (pd_n P) A (state, stack) -> answers (fun fuel => get_trace_config P fuel A state stack) (run_between (pda_rules P) (fun c => c = (state, stack)) (aut_lang (pd_n P) A0))) /\
  (~ aut_lang (pd_n P) A (state, stack) -> forall fuel, Nat.pow (S (a_size A)) (length stack) <= fuel -> get_trace_config P fuel A state stack = None).
Proof.
  intros P A0 A WP OK NI NU SD state stack Hs.
  assert (LN: aut_lang (pd_n P) A (state, stack) <-> exists f, npath (aut_edges A) state stack f /\ aut_final A f).
  { split. - intros [_ [f [H1 H2]]]. exists f. split; auto. apply apath_npath; auto. intros q q' H. destruct (pre_side_no_eps _ _ _ SD _ _ H).
    - intros [f [H1 H2]]. split; auto. exists f. split; auto. apply npath_apath; auto. }
  destruct (config_trace P A (ps_wf _ _ _ SD) (run_between (pda_rules P) (fun c => c = (state, stack)) (aut_lang (pd_n P) A0)) state stack Hs) as [G1 G2].
  - unfold a_size. rewrite (ps_acc _ _ _ SD). apply OK.
  - intros p LP PC fuel. unfold get_trace_path. assert (HF: ap_front p < pd_n P) by (apply (f_equal fst) in PC; cbn in PC; rewrite PC; auto).
    destruct (pre_tb P A0 A WP OK NI NU SD p LP HF fuel) as [[T TL]|[[[steps p'] bb] [T TK]]]; rewrite T; auto. right. eexists. split; [reflexivity|].
    destruct (trace_pre P A0 A p _ (pre_labs _ _ _ SD) (proj1 LP) TK _ eq_refl) as [E1 [E2 [E3 E4]]]. cbn [fst snd] in *. subst bb. split; auto. exists (pconf p). ands; auto.
  - rewrite <- LN in G1, G2. split; auto. intros H. apply G2; auto.
Qed.
Lemma config_trace_post : forall P A0 A, wf_pda P -> post_ok P A0 -> all_null A0 -> post_side P A0 A -> forall state stack, state < pd_n P ->
  ((exists f, npath (aut_edges A) state stack f /\ aut_final A f) -> answers (fun fuel => get_trace_config P fuel A state stack) (run_between (pda_rules P) (aut_lang (pd_n P) A0) (fun c => c = (state, stack)))) /\
  (~ (exists f, npath (aut_edges A) state stack f /\ aut_final A f) -> forall fuel, Nat.pow (S (a_size A)) (length stack) <= fuel -> get_trace_config P fuel A state stack = None).
Proof.
  intros P A0 A WP OK NU SD state stack Hs.
  destruct (config_trace P A (qs_wf _ _ _ SD) (run_between (pda_rules P) (aut_lang (pd_n P) A0) (fun c => c = (state, stack))) state stack Hs) as [G1 G2].
  - unfold a_size. destruct (qs_acc _ _ _ SD) as [k Ek]. rewrite Ek, app_length. pose proof (qk_n _ _ OK) as K. unfold a_size in K. lia.
  - intros p LP PC fuel. unfold get_trace_path. assert (HF: ap_front p < pd_n P) by (apply (f_equal fst) in PC; cbn in PC; rewrite PC; auto).
    destruct (post_tb P A0 A WP OK NU SD p LP HF fuel) as [[T TL]|[[[steps p'] bb] [T TK]]]; rewrite T; auto. right. eexists. split; [reflexivity|].
    destruct (trace_post P A0 A p _ (post_labs _ _ _ SD) (proj1 LP) TK _ eq_refl) as [E1 [E2 [E3 E4]]]. cbn [fst snd] in *.
    match goal with |- run_between _ _ _ ?t => replace t with ((if bb then @rev config else fun l => l) (decode_edges P p :: map (fun x => decode_edges P (snd x)) steps)) by (destruct bb; auto) end.
    split; auto. eexists. split; [apply (hd_error_hd _ _ (pconf p)); auto|]. split; auto. rewrite (last_indep _ _ _ (pconf p)), E3 by auto. auto.
  - split; auto. intros H. apply G2; auto.
Qed.

(** ** Saturation with an arbitrary early-termination callback that never fails *)
Definition total_cb {X} (et : option (aut -> X -> edge -> trace -> option (bool * X))) : Prop := forall f, et = Some f -> forall A x e t, f A x e t <> None.
Lemma pre_et_side : forall P X et fuel A0 x st b, wf_pda P -> pre_ok P A0 -> total_cb et -> pre_star_et P X et fuel A0 x = done (st, b) -> pre_side P A0 (p_aut st).
Proof.
  intros P X et fuel A0 x st b WP OK TC E. set (J := fun (_ : aut) (_ : X) (_ : bool) => True).
  assert (JC: forall f A x e t A', et = Some f -> J A x false -> a_acc A = a_acc A0 -> a_ord A = a_ord A0 -> (forall e', In e' (map fst (a_edges A)) -> in_range P A0 e') -> in_range P A0 e ->
    emplace_edge A e t = Some (A', true) -> exists b x', f A' x e t = Some (b, x') /\ J A' x' b).
  { intros f A x1 e t A' Ef _ _ _ _ _ _. specialize (TC f Ef A' x1 e t). destruct (f A' x1 e t) as [[b1 x1']|]; [|congruence]. exists b1, x1'. unfold J; auto. }
  unfold pre_star_et in E. destruct (pre_init_spec P WP X et A0 (po_n _ _ OK) (po_ord _ _ OK) J) with (x0 := x) as [st0 [E0 SI]]; unfold J; auto; [apply OK|apply pre_ok_range; auto|].
  rewrite E0 in E. cbn [obind] in E. destruct (pre_run_any P WP X et A0 (po_n _ _ OK) J) with (fuel := fuel) (st := st0) as [K|[st' [b' [K [H1 _]]]]]; unfold J; auto.
  - rewrite K in E. discriminate.
  - rewrite K in E. inversion E; subst. eapply sat_side; eauto. apply OK.
Qed.
Lemma post_et_side : forall P X et fuel A0 x st b, wf_pda P -> post_ok P A0 -> total_cb et -> post_star_et P X et fuel A0 x = done (st, b) -> post_side P A0 (q_aut st).
Proof.
  intros P X et fuel A0 x st b WP OK TC E. set (J := fun (_ : aut) (_ : X) (_ : bool) => True).
  unfold post_star_et in E. 
  assert (JC: forall f A x e t A', et = Some f -> J A x false -> a_acc A = a_acc (fst (qp_init P A0)) -> a_ord A = a_ord A0 -> (forall e', In e' (map fst (a_edges A)) -> q_range P A0 e') -> q_range P A0 e ->
    emplace_edge A e t = Some (A', true) -> exists b x', f A' x e t = Some (b, x') /\ J A' x' b).
  { intros f A x1 e t A' Ef _ _ _ _ _ _. specialize (TC f Ef A' x1 e t). destruct (f A' x1 e t) as [[b1 x1']|]; [|congruence]. exists b1, x1'. unfold J; auto. }
  destruct (post_init_spec P X et A0 (qk_n _ _ OK) (qk_ord _ _ OK) J) with (x0 := x) as [st0 [E0 SI]]; unfold J; auto.
  - apply OK.
  - intros [q l q'] H. apply (qk_range _ _ OK) in H. auto.
  - rewrite E0 in E. cbn [obind] in E. destruct (post_run_any P WP X et A0 (qk_n _ _ OK) J) with (fuel := fuel) (st := st0) as [K|[st' [b' [K [H1 _]]]]]; unfold J; auto.
    + rewrite K in E. discriminate.
    + rewrite K in E. inversion E; subst. eapply kinv_side; eauto. apply OK.
Qed.
