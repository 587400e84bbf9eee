(** The dual search for shortest traces: what it stores in the product comes from runs. *)
From Coq Require Import List Arith Lia Bool ZArith Permutation Sorted.
From Verif Require Import Base BaseFacts Spec SpecFacts PdaModel PdaProof AutModel AutProof PreStarModel PreStarProof PreStarLang
  PostStarModel PostStarProof PostStarLang SolverModel QueryModel QueryProof ProductModel ProductProof UtilModel UtilProof ShortSpec ShortModel ShortProdProof
  PostShortProof PreShortModel PreShortProof PreShortLang DualShortModel.
Import ListNotations.

(** Paths over edges with derivable weights. *)
Inductive rpath (R : edge -> Z -> Prop) (p : nat) : list nat -> Z -> nat -> Prop :=
| rp_nil : rpath R p [] 0%Z p
| rp_snoc : forall w v a l x b, rpath R p w v a -> R (mk_edge a l b) x -> rpath R p (w ++ olist l) (v + x)%Z b.

Lemma eloop_inv : forall (S A R : Type) (f : S -> A -> option (S + R)) (Q : S -> Prop) (T : R -> Prop) l,
  (forall s a r, In a l -> Q s -> f s a = Some r -> match r with inl s' => Q s' | inr o => T o end) ->
  forall s r, Q s -> eloop f l s = Some r -> match r with inl s' => Q s' | inr o => T o end.
Proof.
  intros S A R f Q T l. induction l as [|a l IH]; intros H s r HQ E; cbn in E; [injection E as <-; auto|].
  destruct (f s a) as [[s1|o]|] eqn:E1; [| |discriminate].
  - apply (IH (fun s a r Hin => H s a r (or_intror Hin)) s1 r); auto. apply (H s a (inl s1)); cbn; auto.
  - injection E as <-. apply (H s a (inr o)); cbn; auto.
Qed.
Lemma ofold_inv : forall (S A : Type) (f : S -> A -> option S) (Q : S -> Prop) l,
  (forall s a s', In a l -> Q s -> f s a = Some s' -> Q s') -> forall s s', Q s -> ofold f l s = Some s' -> Q s'.
Proof.
  intros S A f Q l. induction l as [|a l IH]; intros H s s' HQ E; cbn in E; [injection E as <-; auto|].
  destruct (f s a) as [s1|] eqn:E1; [|discriminate]. apply (IH (fun s a r Hin => H s a r (or_intror Hin)) s1 s'); auto. apply (H s a s1); cbn; auto.
Qed.

Section DProd.
  Variable n : nat.
  Variable top : list (Z * nat) -> nat.
  (** The accepting flags of both automata and the weights their edges may have. *)
  Variables accF accS : list bool.
  Variables RF RS : edge -> Z -> Prop.

  Definition JG (a b : nat) (d : Z) : Prop := exists p w va vb, p < n /\ rpath RF p w va a /\ rpath RS p w vb b /\ d = (va + vb)%Z.
  Definition FOUND : Prop := exists a b d, JG a b d /\ nth_error accF a = Some true /\ nth_error accS b = Some true.

  Lemma JG_start : forall p, p < n -> JG p p 0.
  Proof. intros p H. exists p, [], 0%Z, 0%Z. ands; auto; constructor. Qed.
  Lemma JG_pair : forall a b d l a' b' x y, JG a b d -> RF (mk_edge a (Some l) a') x -> RS (mk_edge b (Some l) b') y -> JG a' b' (d + (x + y))%Z.
  Proof.
    intros a b d l a' b' x y (p & w & va & vb & Hp & H1 & H2 & ->) Hx Hy. exists p, (w ++ olist (Some l)), (va + x)%Z, (vb + y)%Z. ands; auto; try (eapply rp_snoc; eauto). lia.
  Qed.
  Lemma JG_epsF : forall a b d a' x, JG a b d -> RF (mk_edge a None a') x -> JG a' b (d + x)%Z.
  Proof.
    intros a b d a' x (p & w & va & vb & Hp & H1 & H2 & ->) Hx. exists p, (w ++ olist None), (va + x)%Z, vb. ands; auto; [eapply rp_snoc; eauto| |lia].
    cbn. rewrite app_nil_r. auto.
  Qed.
  Lemma JG_epsS : forall a b d b' x, JG a b d -> RS (mk_edge b None b') x -> JG a b' (d + x)%Z.
  Proof.
    intros a b d a' x (p & w & va & vb & Hp & H1 & H2 & ->) Hx. exists p, (w ++ olist None), va, (vb + x)%Z. ands; auto; [|eapply rp_snoc; eauto|lia].
    cbn. rewrite app_nil_r. auto.
  Qed.

  Notation pair := (pr_pair n).
  Record PB (pr : prod_st) : Prop := {
    b_size : a_size (pr_aut pr) = n + length (pr_ids pr);
    b_acc : forall id a b, n <= id -> pair pr id = Some (a, b) -> nth_error (a_acc (pr_aut pr)) id = Some true -> nth_error accF a = Some true /\ nth_error accS b = Some true;
    b_fast : forall a b id, In (b, id) (nth a (pr_fast pr) []) -> pair pr id = Some (a, b);
    b_back : forall a b id, In (a, id) (nth b (pr_back pr) []) -> pair pr id = Some (a, b) }.
  Definition PS (sp : sprod) : Prop := PB (sp_pr sp) /\
    forall to from l w, In (to, (from, l, w)) (sp_best sp) -> n <= to /\ exists a b, pair (sp_pr sp) to = Some (a, b) /\ JG a b w.
  Definition pext (pr pr' : prod_st) : Prop := forall i x, pair pr i = Some x -> pair pr' i = Some x.

  Variables F S : waut.
  Hypothesis AF : a_acc (wa_aut F) = accF.
  Hypothesis AS : a_acc (wa_aut S) = accS.
  Hypothesis EF : forall q l q', aut_edges (wa_aut F) q l q' -> RF (mk_edge q l q') (w_of F (mk_edge q l q')).
  Hypothesis ES : forall q l q', aut_edges (wa_aut S) q l q' -> RS (mk_edge q l q') (w_of S (mk_edge q l q')).

  Lemma gps_weak : forall pr a b pr' fr id, PB pr -> get_product_state n true (wa_aut F) (wa_aut S) pr a b = Some (pr', (fr, id)) ->
    PB pr' /\ pext pr pr' /\ pair pr' id = Some (a, b).
  Proof.
    intros pr a b pr' fr id B E. unfold get_product_state in E.
    destruct (accepting (wa_aut F) a) as [xa|] eqn:Ea; [|discriminate]. destruct (accepting (wa_aut S) b) as [xb|] eqn:Eb; [|discriminate]. cbn [obind] in E.
    destruct (Nat.eqb a b && Nat.ltb a n) eqn:Eab.
    { injection E as <- <- <-. apply andb_true_iff in Eab. destruct Eab as [E1 E2]. apply Nat.eqb_eq in E1. subst b. ands; auto; [intros i x; auto|]. unfold pr_pair. rewrite E2. auto. }
    destruct (id_find (a, b) (pr_ids pr) 0) as [i|] eqn:Ei.
    { injection E as <- <- <-. apply id_find_Some in Ei. destruct Ei as [_ Ei]. ands; auto; [intros j x; auto|]. unfold pr_pair. destruct (Nat.ltb_spec (i + n) n); [lia|].
      replace (i + n - n) with (i - 0) by lia. auto. }
    destruct (Nat.eqb_spec (a_size (pr_aut pr)) (length (pr_ids pr) + n)) as [Es|]; [|discriminate]. injection E as <- _ <-.
    assert (X : forall i x, pair pr i = Some x -> nth_error (pr_ids pr ++ [(a, b)]) (i - n) = Some x \/ i < n).
    { intros i x H. unfold pr_pair in H. destruct (Nat.ltb_spec i n); auto. left. rewrite nth_error_app1; auto. apply nth_error_lt in H. auto. }
    assert (XE : pext pr (mk_prod (a_add_state (pr_aut pr) (xa && xb)) (pr_ids pr ++ [(a, b)]) (fast_add (pr_fast pr) a (b, a_size (pr_aut pr))) (fast_add (pr_back pr) b (a, a_size (pr_aut pr))))).
    { intros i x H. destruct (X i x H) as [H'|H']; unfold pr_pair in *; cbn [pr_ids] in *; destruct (Nat.ltb_spec i n); auto; lia. }
    assert (NP : forall fa ba, pair (mk_prod (a_add_state (pr_aut pr) (xa && xb)) (pr_ids pr ++ [(a, b)]) fa ba) (a_size (pr_aut pr)) = Some (a, b)).
    { intros. unfold pr_pair. cbn [pr_ids]. destruct (Nat.ltb_spec (a_size (pr_aut pr)) n); [lia|]. rewrite nth_error_app2 by lia. replace (a_size (pr_aut pr) - n - length (pr_ids pr)) with 0 by lia. auto. }
    ands; auto. constructor.
    - clear X XE NP. unfold a_size, a_add_state in *. cbn [pr_aut pr_ids a_acc]. rewrite (app_length (a_acc _)), (app_length (pr_ids _)). cbn [length]. lia.
    - intros i a0 b0 Hi Hp Ht. cbn [pr_aut a_add_state a_acc] in Ht. destruct (Nat.lt_ge_cases i (a_size (pr_aut pr))) as [L|L].
      + rewrite nth_error_app1 in Ht by exact L. apply (b_acc _ B i); auto. unfold pr_pair in *. cbn [pr_ids] in Hp. destruct (Nat.ltb_spec i n); auto. rewrite nth_error_app1 in Hp by lia. auto.
      + assert (i = a_size (pr_aut pr)). { apply nth_error_lt in Ht. rewrite app_length in Ht. unfold a_size in *. cbn in Ht. lia. } subst i. rewrite NP in Hp. injection Hp as <- <-.
        rewrite nth_error_app2 in Ht by (unfold a_size; lia). unfold a_size in Ht. rewrite Nat.sub_diag in Ht. cbn in Ht. injection Ht as Ht. apply andb_true_iff in Ht. destruct Ht as [-> ->].
        unfold accepting in *. rewrite <- AF, <- AS. auto.
    - intros a0 b0 i H. cbn [pr_fast] in H. rewrite fast_add_nth in H. apply in_app_iff in H. destruct H as [H|H]; [apply XE; apply (b_fast _ B); auto|].
      destruct (Nat.eqb_spec a0 a) as [->|]; [|destruct H]. destruct H as [H|[]]. injection H as <- <-. apply NP.
    - intros a0 b0 i H. cbn [pr_back] in H. rewrite fast_add_nth in H. apply in_app_iff in H. destruct H as [H|H]; [apply XE; apply (b_back _ B); auto|].
      destruct (Nat.eqb_spec b0 b) as [->|]; [|destruct H]. destruct H as [H|[]]. injection H as <- <-. apply NP.
  Qed.

  Lemma pae_weak : forall pr from l to pr', PB pr -> pr_add_edge pr from l to = Some pr' -> PB pr' /\ pext pr pr'.
  Proof.
    intros pr from l to pr' B E. unfold pr_add_edge in E. destruct (a_add_edge (pr_aut pr) from l to TNull) as [A|] eqn:EA; [|discriminate]. injection E as <-.
    assert (HA : a_acc A = a_acc (pr_aut pr)).
    { unfold a_add_edge, emplace_edge in EA. destruct (Nat.ltb _ _); [|discriminate]. destruct (find_edge _ _); injection EA as <-; auto. }
    split; [|intros i x; auto]. destruct B as [B1 B2 B3 B4]. constructor; cbn [pr_aut pr_ids pr_fast pr_back]; auto.
    - unfold a_size in *. rewrite HA. auto.
    - intros id a b. rewrite HA. apply B2.
  Qed.
  Lemma pals_weak : forall ls pr from to pr', PB pr -> pr_add_labels pr from to ls = Some pr' -> PB pr' /\ pext pr pr'.
  Proof.
    intros ls pr from to pr' B E. unfold pr_add_labels in E.
    apply (ofold_inv _ _ _ (fun p => PB p /\ pext pr p)) with (3 := E); [|split; auto; intros i x; auto].
    intros s [l|] s' _ [H1 H2] E1; [|injection E1 as <-; auto]. destruct (pae_weak _ _ _ _ _ H1 E1) as [K1 K2]. split; auto. intros i x H. auto.
  Qed.

  Lemma min_state_in : forall sp l cur r, min_state sp cur l = Some r -> r = cur \/ (In (fst r) l /\ best sp (fst r) = Some (snd r)).
  Proof.
    intros sp l. induction l as [|q l IH]; intros cur r E; cbn in E; [injection E as <-; auto|].
    destruct (best sp q) as [w|] eqn:Eb; [|discriminate]. cbn [obind] in E. destruct (IH _ _ E) as [->|[H1 H2]]; [|right; cbn; auto].
    destruct (Z.ltb w (snd cur)); auto. right. cbn. auto.
  Qed.
  Lemma min_accepting_in : forall sp q w, min_accepting sp = Some (q, w) -> aut_final (pr_aut (sp_pr sp)) q /\ best sp q = Some w.
  Proof.
    intros sp q w E. unfold min_accepting in E. rewrite <- accepting_ids_spec. destruct (accepting_ids (pr_aut (sp_pr sp))) as [|q0 l]; [discriminate|].
    destruct (best sp q0) as [w0|] eqn:Eb; [|discriminate]. cbn [obind] in E. destruct (min_state_in _ _ _ _ E) as [H|[H1 H2]].
    - injection H as -> ->. cbn. auto.
    - cbn in *. auto.
  Qed.
  Lemma best_JG : forall sp q w, PS sp -> best sp q = Some w -> n <= q /\ exists a b, pair (sp_pr sp) q = Some (a, b) /\ JG a b w.
  Proof.
    intros sp q w [_ B] E. unfold best in E. destruct (b_find q (sp_best sp)) as [[[f l] w']|] eqn:Ef; [|discriminate]. injection E as ->. apply b_find_In in Ef. eapply B; eauto.
  Qed.
  Lemma min_found : forall sp q w, PS sp -> min_accepting sp = Some (q, w) -> exists a b, JG a b w /\ nth_error accF a = Some true /\ nth_error accS b = Some true.
  Proof.
    intros sp q w HP E. destruct (min_accepting_in _ _ _ E) as [H1 H2]. destruct (best_JG _ _ _ HP H2) as [L (a & b & Hp & HJ)].
    exists a, b. split; auto. apply (b_acc _ (proj1 HP) q); auto.
  Qed.
  Lemma ge_found : forall sp etp, PS sp -> good_enough sp etp = Some true -> FOUND.
  Proof.
    intros sp etp HP E. unfold good_enough in E. destruct (has_accepting (sp_pr sp)); [|discriminate]. destruct (min_accepting sp) as [[q w]|] eqn:Em; [|discriminate].
    destruct (min_found _ _ _ HP Em) as (a & b & H). exists a, b, w. auto.
  Qed.

  Definition SQ (sp0 : sprod) (s : sploop) : Prop := PS (fst s) /\ pext (sp_pr sp0) (sp_pr (fst s)).
  Definition ST (sp : sprod) : Prop := PS sp /\ FOUND.
  Definition good (sp0 : sprod) (r : sploop + sprod) : Prop := match r with inl s => SQ sp0 s | inr sp => ST sp end.

  Lemma PS_pr : forall sp pr, PS sp -> PB pr -> pext (sp_pr sp) pr -> PS (mk_sprod pr (sp_best sp)).
  Proof. intros sp pr [_ H] B X. split; auto. intros to from l w Hin. destruct (H _ _ _ _ Hin) as [L (a & b & Hp & HJ)]. split; auto. exists a, b. auto. Qed.

  Lemma finish_weak : forall sp0 sp etp wt fr from l to w r a0 b0 a b, PS sp -> pext (sp_pr sp0) (sp_pr sp) ->
    pair (sp_pr sp) from = Some (a0, b0) -> pair (sp_pr sp) to = Some (a, b) ->
    (forall d, JG a0 b0 d -> JG a b (d + w)%Z) -> sp_finish n etp sp wt fr from l to w = Some r -> good sp0 r.
  Proof.
    intros sp0 sp etp wt fr from l to w r a0 b0 a b HP HX Hf Ht HJ E. unfold sp_finish in E.
    destruct (make_back_edge n sp from l to w) as [[sp1 o]|] eqn:Em; [|discriminate]. cbn [obind fst snd] in E.
    assert (K : PS sp1 /\ sp_pr sp1 = sp_pr sp).
    { unfold make_back_edge in Em. destruct (Nat.ltb_spec to n) as [L|L]; [injection Em as <- <-; auto|].
      assert (N : exists nw, (if Nat.ltb from n then Some w else b <- best sp from ;; Some (b + w)%Z) = Some nw /\ JG a b nw).
      { destruct (Nat.ltb_spec from n) as [L'|L'].
        - exists w. split; auto. replace w with (0 + w)%Z by lia. apply HJ. unfold pr_pair in Hf. apply Nat.ltb_lt in L' as L2. rewrite L2 in Hf. injection Hf as <- <-. apply JG_start; auto.
        - destruct (best sp from) as [bf|] eqn:Eb; [|discriminate]. exists (bf + w)%Z. split; auto. apply HJ. destruct (best_JG _ _ _ HP Eb) as [_ (a1 & b1 & Hp & H)]. congruence. }
      destruct N as (nw & En & HN). rewrite En in Em. cbn [obind] in Em. destruct (match best sp to with None => true | Some b => Z.ltb nw b end); injection Em as <- <-; auto.
      split; auto. destruct HP as [P1 P2]. split; auto. cbn [sp_pr sp_best]. intros to' from' l' w' [H|H]; [|eapply P2; eauto]. injection H as <- <- <- <-. split; auto. eauto. }
    destruct K as [K1 K2]. destruct (fr && match o with None => true | Some _ => false end); [discriminate|].
    destruct (good_enough sp1 etp) as [g|] eqn:Eg; [|discriminate]. cbn [obind] in E. injection E as <-. destruct g.
    - split; auto. eapply ge_found; eauto.
    - split; auto. cbn [fst]. rewrite K2. auto.
  Qed.

  Lemma eps_weak : forall flip etp from i f sp0 s to r, SQ sp0 s -> pair (sp_pr sp0) from = Some (i, f) ->
    dp_eps_body n flip F S etp from i f s to = Some r -> good sp0 r.
  Proof.
    intros flip etp from i f sp0 s to r [HP HX] Hf E. unfold dp_eps_body in E.
    destruct (has_label (wa_aut (if flip then F else S)) (if flip then i else f) to None) eqn:Eh; [|injection E as <-; split; auto]. apply has_label_spec in Eh.
    destruct (get_product_state n true (wa_aut F) (wa_aut S) (sp_pr (fst s)) (if flip then to else i) (if flip then f else to)) as [[pr1 [fr id]]|] eqn:Eg; [|discriminate]. cbn [obind fst snd] in E.
    destruct (gps_weak _ _ _ _ _ _ (proj1 HP) Eg) as (B1 & X1 & Hid).
    destruct (pr_add_edge pr1 from None id) as [pr2|] eqn:Ep; [|discriminate]. cbn [obind] in E. destruct (pae_weak _ _ _ _ _ B1 Ep) as [B2 X2].
    eapply (finish_weak sp0) with (6 := E); cbn [sp_pr].
    - apply PS_pr; auto. intros j x H. auto.
    - intros j x H. auto.
    - apply X2, X1, HX. exact Hf.
    - apply X2. exact Hid.
    - destruct flip; intros d Hd; [eapply JG_epsF|eapply JG_epsS]; eauto.
  Qed.

  Lemma min_label_in : forall wf ls cur, In (min_label wf cur ls) (cur :: ls).
  Proof.
    intros wf ls. induction ls as [|l ls IH]; intros cur; cbn; auto. destruct (IH (if Z.ltb (wf l) (wf cur) then l else cur)) as [H|H]; [|auto]. rewrite <- H. destruct (Z.ltb (wf l) (wf cur)); auto.
  Qed.

  Lemma pairb_weak : forall etp from i f i_to sp0 s f_to r, SQ sp0 s -> pair (sp_pr sp0) from = Some (i, f) ->
    dp_pair_body n F S etp from i f i_to s f_to = Some r -> good sp0 r.
  Proof.
    intros etp from i f i_to sp0 s f_to r [HP HX] Hf E. unfold dp_pair_body in E.
    set (ls := label_inter (labels_between (wa_aut F) i i_to) (labels_between (wa_aut S) f f_to)) in *.
    destruct (has_proper_label ls); [|injection E as <-; split; auto].
    destruct (get_product_state n true (wa_aut F) (wa_aut S) (sp_pr (fst s)) i_to f_to) as [[pr1 [fr id]]|] eqn:Eg; [|discriminate]. cbn [obind fst snd] in E.
    destruct (gps_weak _ _ _ _ _ _ (proj1 HP) Eg) as (B1 & X1 & Hid).
    destruct (pr_add_labels pr1 from id ls) as [pr2|] eqn:Ep; [|discriminate]. cbn [obind] in E. destruct (pals_weak _ _ _ _ _ B1 Ep) as [B2 X2].
    destruct (filter (fun l => match l with Some _ => true | None => false end) ls) as [|l0 ls'] eqn:El; [discriminate|].
    set (wf := fun l => (w_of F (mk_edge i l i_to) + w_of S (mk_edge f l f_to))%Z) in *.
    assert (HM : In (min_label wf l0 ls') (l0 :: ls')) by apply min_label_in. rewrite <- El in HM. apply filter_In in HM. destruct HM as [HM1 HM2].
    apply (label_inter_spec 0) in HM1; try lia. destruct HM1 as [M1 M2].
    destruct (min_label wf l0 ls') as [x|]; [|discriminate].
    eapply (finish_weak sp0) with (6 := E); cbn [sp_pr].
    - apply PS_pr; auto. intros j y H. auto.
    - intros j y H. auto.
    - apply X2, X1, HX. exact Hf.
    - apply X2. exact Hid.
    - intros d Hd. unfold wf. eapply JG_pair; eauto.
  Qed.

  Lemma SQ_refl : forall sp wt, PS sp -> SQ sp (sp, wt).
  Proof. intros sp wt H. split; auto. intros i x; auto. Qed.
  Lemma good_trans : forall sp0 s r, SQ sp0 s -> good (fst s) r -> good sp0 r.
  Proof. intros sp0 s [s'|sp] [_ H] K; auto. destruct K as [K1 K2]. split; auto. intros i x Hi. auto. Qed.

  Lemma expand_weak : forall etp from sp wt r, PS sp -> dp_expand n F S etp from (sp, wt) = Some r -> good sp r.
  Proof.
    intros etp from sp wt r HP E. unfold dp_expand in E. cbn [fst] in E.
    destruct (pair sp.(sp_pr) from) as [[i f]|] eqn:Ef; [|discriminate]. cbn [obind fst snd] in E. destruct (_ && _); [|discriminate].
    destruct (eloop (dp_eps_body n true F S etp from i f) (tos (wa_aut F) i) (sp, wt)) as [r1|] eqn:E1; [|discriminate]. cbn [obind] in E.
    assert (G1 : good sp r1). { apply (eloop_inv _ _ _ _ (SQ sp) ST) with (3 := E1); [|apply SQ_refl; auto]. intros s a r0 _ HQ Er. apply (eps_weak _ _ _ _ _ sp _ _ _ HQ Ef Er). }
    destruct r1 as [s1|sp1]; [|injection E as <-; auto].
    destruct (eloop (dp_eps_body n false F S etp from i f) (tos (wa_aut S) f) s1) as [r2|] eqn:E2; [|discriminate]. cbn [obind] in E.
    assert (G2 : good sp r2). { apply (eloop_inv _ _ _ _ (SQ sp) ST) with (3 := E2); auto. intros s a r0 _ HQ Er. apply (eps_weak _ _ _ _ _ sp _ _ _ HQ Ef Er). }
    destruct r2 as [s2|sp2]; [|injection E as <-; auto].
    apply (eloop_inv _ _ _ _ (SQ sp) ST) with (3 := E); auto. intros s a r0 _ HQ Er.
    apply (eloop_inv _ _ _ _ (SQ sp) ST) with (3 := Er); auto. intros s' a' r' _ HQ' Er'. apply (pairb_weak _ _ _ _ _ sp _ _ _ HQ' Ef Er').
  Qed.

  Lemma construct_weak : forall etp fuel sp wt b sp', PS sp -> dp_construct n top fuel F S etp sp wt = Some (b, sp') -> PS sp' /\ (b = true -> FOUND).
  Proof.
    intros etp fuel. induction fuel as [|fuel IH]; intros sp wt b sp' HP E; cbn in E; destruct (ps_empty wt); try discriminate.
    1,2: destruct (good_enough sp etp) as [g|] eqn:Eg; [|discriminate]; injection E as <- <-; split; auto; intros ->; eapply ge_found; eauto.
    destruct (ps_top top wt) as [x|]; [|discriminate]. cbn [obind] in E. destruct (ps_pop top wt) as [wt'|]; [|discriminate]. cbn [obind] in E.
    destruct (dp_expand n F S etp (snd x) (sp, wt')) as [[[sp1 wt1]|sp1]|] eqn:Ee; [| |discriminate]; cbn [obind] in E.
    - apply (expand_weak _ _ _ _ _ HP) in Ee. apply (IH sp1 wt1); auto. apply Ee.
    - apply (expand_weak _ _ _ _ _ HP) in Ee. injection E as <- <-. destruct Ee. auto.
  Qed.

  Lemma add_weak : forall (in_first : bool) sp e w etp b sp', PS sp -> (if in_first then RF e w else RS e w) ->
    dp_add_edge n top in_first F S sp e w etp = Some (b, sp') -> PS sp' /\ (b = true -> FOUND).
  Proof.
    intros in_first sp e w etp b sp' HP HR E. unfold dp_add_edge in E.
    set (fs := nth (e_src e) (if in_first then pr_fast (sp_pr sp) else pr_back (sp_pr sp)) [] ++ (if Nat.ltb (e_src e) n then [(e_src e, e_src e)] else [])) in *.
    match type of E with (obind ?X _) = _ => destruct X as [r|] eqn:Er; [|discriminate] end. cbn [obind] in E.
    assert (G : good sp r).
    { apply (eloop_inv _ _ _ _ (SQ sp) ST) with (3 := Er); [|apply SQ_refl; auto]. intros s [q id] r0 Hin HQ E0. cbn [fst snd] in E0.
      destruct (Nat.ltb q (a_size (wa_aut (if in_first then S else F)))); [|discriminate].
      assert (Hp : pair (sp_pr sp) id = Some (if in_first then (e_src e, q) else (q, e_src e))).
      { unfold fs in Hin. apply in_app_iff in Hin. destruct Hin as [Hin|Hin].
        - destruct HP as [B _]. destruct in_first; [apply (b_fast _ B)|apply (b_back _ B)]; auto.
        - destruct (Nat.ltb_spec (e_src e) n) as [L|L]; [|destruct Hin]. destruct Hin as [Hin|[]]. injection Hin as <- <-. unfold pr_pair. apply Nat.ltb_lt in L. rewrite L. destruct in_first; auto. }
      apply (eloop_inv _ _ _ _ (SQ sp) ST) with (3 := E0); auto. clear s HQ E0 r0. intros s [t x] r0 Ht [HP' HX] E0. unfold dp_target_body in E0. cbn [fst snd] in E0.
      destruct (get_product_state n true (wa_aut F) (wa_aut S) (sp_pr (fst s)) (if in_first then e_dst e else t) (if in_first then t else e_dst e)) as [[pr1 [fr id']]|] eqn:Eg; [|discriminate]. cbn [obind fst snd] in E0.
      destruct (gps_weak _ _ _ _ _ _ (proj1 HP') Eg) as (B1 & X1 & Hid).
      destruct (pr_add_edge pr1 id (e_lab e) id') as [pr2|] eqn:Ep; [|discriminate]. cbn [obind] in E0. destruct (pae_weak _ _ _ _ _ B1 Ep) as [B2 X2].
      destruct e as [es el ed]. cbn [e_src e_lab e_dst] in *.
      eapply (finish_weak sp _ _ _ _ _ _ _ _ _ (if in_first then es else q) (if in_first then q else es)) with (6 := E0); cbn [sp_pr].
      - apply PS_pr; auto. intros j y H. auto.
      - intros j y H. auto.
      - apply X2, X1, HX. rewrite Hp. destruct in_first; auto.
      - apply X2. exact Hid.
      - intros d Hd. unfold dp_targets in Ht. destruct el as [l|].
        + apply in_map_iff in Ht. destruct Ht as (t' & Et & Ht). injection Et as -> <-. apply filter_In in Ht. destruct Ht as [_ Ht]. apply has_label_spec in Ht.
          destruct in_first; [apply (JG_pair _ _ _ l _ _ _ _ Hd); auto|]. rewrite (Z.add_comm w). apply (JG_pair _ _ _ l _ _ _ _ Hd); auto.
        + destruct Ht as [Ht|[]]. injection Ht as <- <-. destruct in_first; [eapply JG_epsF|eapply JG_epsS]; eauto. }
    destruct r as [[sp1 wt1]|sp1]; [|injection E as <- <-; destruct G; auto]. eapply construct_weak; [|exact E]. apply G.
  Qed.
End DProd.
