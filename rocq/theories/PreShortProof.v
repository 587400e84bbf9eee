(** The search for shortest traces with pre*: the saturation is Dijkstra's algorithm over automaton edges, ordered by the weight of the edge
    plus the least weight of a path from its target. *)
From Coq Require Import List Arith Lia Bool ZArith Permutation Sorted.
From Verif Require Import Base BaseFacts Spec SpecFacts PdaModel PdaProof AutModel AutProof PreStarModel PreStarProof PreStarLang
  PostStarModel SolverModel QueryModel ProductModel UtilModel UtilProof ShortSpec ShortModel PostShortProof PreShortModel.
Import ListNotations.
Local Open Scope Z_scope.

(** Weighted derivations of edges. *)
Inductive kderiv (P : pda) (E0 : list edge) : edge -> Z -> Prop :=
| kd_init : forall e, In e E0 -> kderiv P E0 e 0
| kd_pop : forall p id r ls l, get_rule P p id = Some (r, ls) -> r_op r = POP -> matches (pd_nlab P) ls l ->
    kderiv P E0 (mk_edge p (Some l) (r_to r)) (r_w r)
| kd_swap : forall p id r ls l q w, get_rule P p id = Some (r, ls) -> r_op r = SWAP -> matches (pd_nlab P) ls l ->
    kderiv P E0 (mk_edge (r_to r) (Some (r_opl r)) q) w -> kderiv P E0 (mk_edge p (Some l) q) (w + r_w r)
| kd_noop : forall p id r ls l q w, get_rule P p id = Some (r, ls) -> r_op r = NOOP -> matches (pd_nlab P) ls l ->
    kderiv P E0 (mk_edge (r_to r) (Some l) q) w -> kderiv P E0 (mk_edge p (Some l) q) (w + r_w r)
| kd_push : forall p id r ls l s q w1 w2, get_rule P p id = Some (r, ls) -> r_op r = PUSH -> matches (pd_nlab P) ls l ->
    kderiv P E0 (mk_edge (r_to r) (Some (r_opl r)) s) w1 -> kderiv P E0 (mk_edge s (Some l) q) w2 ->
    kderiv P E0 (mk_edge p (Some l) q) (r_w r + w1 + w2).

Lemma kderiv_nonneg : forall P E0, (forall p id r ls, get_rule P p id = Some (r, ls) -> 0 <= r_w r) ->
  forall e w, kderiv P E0 e w -> 0 <= w.
Proof.
  intros P E0 NN e w H. induction H; try (match goal with G : get_rule _ _ _ = _ |- _ => apply NN in G end); lia.
Qed.

Lemma w_of_cons : forall A (l : list (edge * Z)) e w e', w_of (mk_waut A ((e, w) :: l)) e' = if edge_eq_dec e e' then w else w_of (mk_waut A l) e'.
Proof. intros. unfold w_of. cbn [wa_w]. rewrite w_find_cons. destruct (edge_eq_dec e e'); auto. Qed.

Lemma list_sum_cons : forall a l, list_sum (a :: l) = (a + list_sum l)%nat.
Proof. reflexivity. Qed.
Lemma sum_le : forall (A : Type) (f g : A -> nat) l, (forall x, In x l -> (f x <= g x)%nat) -> (list_sum (map f l) <= list_sum (map g l))%nat.
Proof.
  intros A f g l. induction l as [|a l IH]; intros H; cbn [map]; auto. rewrite !list_sum_cons. assert (H1 := H a (or_introl eq_refl)). specialize (IH (fun x Hx => H x (or_intror Hx))). lia.
Qed.
Lemma sum_lt : forall (A : Type) (f g : A -> nat) l x0, (forall x, In x l -> (f x <= g x)%nat) -> In x0 l -> (f x0 < g x0)%nat ->
  (list_sum (map f l) < list_sum (map g l))%nat.
Proof.
  intros A f g l x0. induction l as [|a l IH]; intros H Hx Hlt; [destruct Hx|]. cbn [map]. rewrite !list_sum_cons. destruct Hx as [->|Hx].
  - assert (K := sum_le _ f g l (fun x Hx => H x (or_intror Hx))). lia.
  - assert (H1 := H a (or_introl eq_refl)). specialize (IH (fun x Hx => H x (or_intror Hx)) Hx Hlt). lia.
Qed.

(** The double loop "for pre_state in _pre_states, for rules of pre_state into q". *)
Lemma rules_loop2 : forall P, wf_pda P -> forall (S : Type) (g : nat -> S -> nat * (rule * labels) -> option S) q sq
    (I : S -> Prop) (le : S -> S -> Prop) (Q : nat -> nat * (rule * labels) -> S -> Prop),
  nth_error (pd_states P) q = Some sq ->
  (forall s, le s s) -> (forall a b c, le a b -> le b c -> le a c) ->
  (forall p x s s', Q p x s -> le s s' -> Q p x s') ->
  (forall p x s, (p < pd_n P)%nat -> In x (visited (rules_at P p) q) -> I s -> exists s', g p s x = Some s' /\ I s' /\ le s s' /\ Q p x s') ->
  forall s, I s -> exists s',
    ofold (fun st pre => s' <- nth_error (pd_states P) pre ;; ofold (g pre) (visited (ps_rules s') q) st) (ps_pre sq) s = Some s' /\
    I s' /\ le s s' /\ (forall p x, In x (visited (rules_at P p) q) -> Q p x s').
Proof.
  intros P WP S g q sq I le Q Eq Hr Ht HQ Hb s Hs.
  destruct (ofold_rule _ _ (fun st pre => s' <- nth_error (pd_states P) pre ;; ofold (g pre) (visited (ps_rules s') q) st)
     I le (fun p s => forall x, In x (visited (rules_at P p) q) -> Q p x s) (ps_pre sq)) with (s := s) as [s' [E1 [E2 [E3 E4]]]]; eauto.
  - intros p s0 Hp Hs0. apply (wf_pre_lt _ WP _ _ _ Eq) in Hp. destruct (nth_error_ex _ _ _ Hp) as [sp Ep].
    rewrite Ep; cbn. rewrite (nth_error_rules_at _ _ _ Ep).
    destruct (ofold_rule _ _ (g p) I le (Q p) (visited (rules_at P p) q)) with (s := s0) as [s' [E1 [E2 [E3 E4]]]]; eauto.
  - exists s'. ands; auto. intros p x Hx. apply E4; auto.
    destruct x as [id [r ls]]. apply visited_In in Hx. destruct Hx as [H1 H2]. cbn in H2.
    assert (Hin := nth_error_In _ _ H1). pose proof (In_rules_lt _ _ _ Hin) as L. destruct (nth_error_ex _ _ _ L) as [sp Es].
    eapply (wf_pre _ WP); eauto. rewrite (nth_error_rules_at _ _ _ Es). eauto.
Qed.

Section PreShortInv.
  Variable P : pda.
  Hypothesis WP : wf_pda P.
  Variable X : Type.
  Variable A0 : waut.
  Let N := a_size (wa_aut A0).
  Let n := pd_n P.
  Let E0 := map fst (a_edges (wa_aut A0)).
  Hypothesis HnN : (n <= N)%nat.
  Hypothesis HO : wf_ord (wa_aut A0).
  Hypothesis NN : forall p id r ls, get_rule P p id = Some (r, ls) -> 0 <= r_w r.
  Notation in_rng := (in_range P (wa_aut A0)).
  Notation deriv := (kderiv P E0).

  Definition kES (st : pk_st X) : list edge := map fst (a_edges (wa_aut (k_aut st))).
  Definition kW (st : pk_st X) (e : edge) : Z := w_of (k_aut st) e.
  Definition mn (st : pk_st X) (q : nat) : option Z := match nth_error (k_min st) q with Some o => o | None => None end.

  Record kbase (st : pk_st X) : Prop := {
    kb_acc : a_acc (wa_aut (k_aut st)) = a_acc (wa_aut A0);
    kb_ord : a_ord (wa_aut (k_aut st)) = a_ord (wa_aut A0);
    kb_nd : NoDup (kES st);
    kb_range : forall e, In e (kES st) -> in_rng e;
    kb_src : forall e, In e (kES st) -> (e_src e < n)%nat \/ In e E0;
    kb_E0 : forall e, In e E0 -> In e (kES st) /\ kW st e = 0;
    kb_ws : forall key e t, In (key, (e, t)) (k_ws st) -> In e (kES st);
    kb_rel : forall e, In e (k_rel st) -> In e (kES st);
    kb_delta : forall s p id, In (s, (p, id)) (k_delta st) -> exists r ls, get_rule P p id = Some (r, ls) /\ r_op r = PUSH /\
        In (mk_edge (r_to r) (Some (r_opl r)) s) (kES st);
    kb_pop : length (k_popped st) = n;
    kb_min : length (k_min st) = N;
    kb_der : forall e, In e (kES st) -> deriv e (kW st e) }.

  Lemma kW_nonneg : forall st e, kbase st -> In e (kES st) -> 0 <= kW st e.
  Proof. intros st e B H. eapply kderiv_nonneg; [exact NN|]. apply (kb_der _ B _ H). Qed.
  Lemma kbase_size : forall st, kbase st -> a_size (wa_aut (k_aut st)) = N.
  Proof. intros st B. unfold a_size. rewrite (kb_acc _ B). auto. Qed.

  (** States whose _minpath is settled. *)
  Definition settled (cur : option nat) (st : pk_st X) (q : nat) : Prop := (n <= q)%nat \/ nth_error (k_popped st) q = Some true \/ cur = Some q.
  Record ready (cur : option nat) (k : Z) (st : pk_st X) (q : nat) (m : Z) : Prop := {
    rd_min : mn st q = Some m;
    rd_k : 0 <= m <= k;
    rd_set : settled cur st q;
    rd_out : (n <= q)%nat -> m = 0;
    rd_edge : forall e m', In e (kES st) -> e_src e = q -> mn st (e_dst e) = Some m' -> m <= kW st e + m' }.

  Definition pend (st : pk_st X) (e : edge) : Prop := exists t m, mn st (e_dst e) = Some m /\ In (kW st e + m, (e, t)) (k_ws st).
  Definition frozen (k : Z) (st : pk_st X) (e : edge) : Prop := In e (kES st) /\ exists m, mn st (e_dst e) = Some m /\ kW st e + m <= k.

  Record core (cur : option nat) (C : edge -> Prop) (k : Z) (st : pk_st X) : Prop := {
    co_base : kbase st;
    co_ready : forall e, In e (kES st) -> exists m, ready cur k st (e_dst e) m;
    co_ws : forall key e t, In (key, (e, t)) (k_ws st) -> k <= key /\ ((n <= e_src e)%nat -> key = 0);
    co_pend : forall e, In e (kES st) -> pend st e \/ C e;
    co_C : forall e, C e -> frozen k st e /\ In e (k_rel st) /\ ((e_src e < n)%nat -> settled cur st (e_src e)) }.

  (** An edge is covered by weight [w]. *)
  Definition cov (st : pk_st X) (e : edge) (w : Z) : Prop := In e (kES st) /\ kW st e <= w.

  (** The measure that decreases whenever something is pushed. *)
  Definition mu1 (st : pk_st X) : nat := (N * pd_nlab P * N - length (a_edges (wa_aut (k_aut st))))%nat.
  Definition mu2 (st : pk_st X) : nat := list_sum (map (fun et => Z.to_nat (kW st (fst et))) (a_edges (wa_aut (k_aut st)))).
  Definition mu_lt (a b : pk_st X) : Prop := (mu1 a < mu1 b)%nat \/ (mu1 a = mu1 b /\ (mu2 a < mu2 b)%nat).
  Definition mu_eq (a b : pk_st X) : Prop := mu1 a = mu1 b /\ mu2 a = mu2 b.

  Record kle (cur : option nat) (k : Z) (st st' : pk_st X) : Prop := {
    kl_ES : forall e, In e (kES st) -> In e (kES st') /\ kW st' e <= kW st e;
    kl_ready : forall q m, ready cur k st q m -> ready cur k st' q m;
    kl_frozen : forall e, frozen k st e -> frozen k st' e /\ kW st' e = kW st e;
    kl_rel : k_rel st' = k_rel st;
    kl_popped : k_popped st' = k_popped st;
    kl_delta : forall d, In d (k_delta st) -> In d (k_delta st');
    kl_mu : (k_ws st' = k_ws st /\ mu_eq st' st) \/ mu_lt st' st }.
  Lemma kle_refl : forall cur k st, kle cur k st st.
  Proof. intros; constructor; auto; try (intros; split; auto; lia). left. unfold mu_eq. auto. Qed.
  Lemma kle_trans : forall cur k a b c, kle cur k a b -> kle cur k b c -> kle cur k a c.
  Proof.
    intros cur k a b c [A1 A2 A3 A4 A5 A6 A7] [B1 B2 B3 B4 B5 B6 B7]. constructor; auto; try congruence.
    - intros e H. destruct (A1 e H) as [H1 H2]. destruct (B1 e H1) as [H3 H4]. split; auto. lia.
    - intros e H. destruct (A3 e H) as [H1 H2]. destruct (B3 e H1) as [H3 H4]. split; auto. congruence.
    - unfold mu_eq, mu_lt in *. destruct A7 as [[A7 A8]|A7], B7 as [[B7 B8]|B7]; [left; split; [congruence|lia]|right; lia..].
  Qed.
  Lemma kle_cov : forall cur k st st' e w, kle cur k st st' -> cov st e w -> cov st' e w.
  Proof. intros cur k st st' e w L [H1 H2]. destruct (kl_ES _ _ _ _ L _ H1). split; auto. lia. Qed.

  Lemma kbase_bound : forall st, kbase st -> (length (a_edges (wa_aut (k_aut st))) <= N * pd_nlab P * N)%nat.
  Proof.
    intros st B. assert (K := universe_length P (wa_aut A0)). fold N in K. rewrite <- K. rewrite <- (map_length fst). apply NoDup_incl_length; [apply B|].
    intros e He. apply in_range_universe; [exact HnN|]. apply (kb_range _ B); auto.
  Qed.

  Lemma kinsert_spec : forall cur C k st e t w m, core cur C k st -> in_rng e -> (e_src e < n)%nat -> ready cur k st (e_dst e) m ->
    deriv e w -> k <= w + m ->
    exists st', k_insert X st e t w = Some st' /\ core cur C k st' /\ kle cur k st st' /\ cov st' e w /\ k_delta st' = k_delta st.
  Proof.
    intros cur C k st e t w m CO Hr Hs RD HD Hk. pose proof (co_base _ _ _ _ CO) as B.
    assert (Hm := rd_min _ _ _ _ _ RD). unfold k_insert.
    assert (E1 : nth_error (k_min st) (e_dst e) = Some (Some m)).
    { unfold mn in Hm. destruct (nth_error (k_min st) (e_dst e)) as [o|]; congruence. }
    rewrite E1. cbn [obind]. destruct Hr as [Hr1 [Hr2 Hr3]].
    unfold emplace_edge. rewrite (kbase_size _ B). fold N in Hr1. assert (Hr1' := Hr1). apply Nat.ltb_lt in Hr1'. rewrite Hr1'.
    assert (Hw0 : 0 <= w) by (eapply kderiv_nonneg; [exact NN|exact HD]).
    destruct (find_edge e (a_edges (wa_aut (k_aut st)))) eqn:F; cbn [obind fst snd].
    - (* an old edge *)
      assert (F0 := find_edge_Some _ _ _ F). apply find_edge_Some in F. apply (in_map fst) in F. cbn [fst] in F. change (In e (kES st)) in F.
      change (w_of (k_aut st) e) with (kW st e).
      destruct (Z.ltb_spec w (kW st e)) as [L|L].
      2:{ exists st. ands; auto using kle_refl. split; auto. }
      set (st' := k_push X _ _ e t). exists st'. split; auto.
      assert (HW : forall e', kW st' e' = if edge_eq_dec e e' then w else kW st e').
      { intros e'. unfold kW, st'. cbn [k_push k_set_aut k_aut]. rewrite w_of_cons. destruct (k_aut st); auto. }
      assert (HWe : kW st' e = w) by (rewrite HW; destruct (edge_eq_dec e e); congruence).
      assert (HWn : forall e', e' <> e -> kW st' e' = kW st e') by (intros e' Hn; rewrite HW; destruct (edge_eq_dec e e'); congruence).
      assert (HWle : forall e', kW st' e' <= kW st e') by (intros e'; rewrite HW; destruct (edge_eq_dec e e') as [<-|]; lia).
      assert (Hmn : forall q, mn st' q = mn st q) by reflexivity.
      assert (HES : kES st' = kES st) by reflexivity.
      assert (Hset : forall q, settled cur st' q = settled cur st q) by reflexivity.
      assert (NF : ~ frozen k st e). { intros [_ (m' & M1 & M2)]. rewrite Hm in M1. injection M1 as <-. lia. }
      assert (NC : ~ C e) by (intros H; apply (co_C _ _ _ _ CO) in H; tauto).
      assert (Hrd : forall q m', ready cur k st q m' -> ready cur k st' q m').
      { intros q m' [D1 D2 D3 D4 D5]. constructor; auto. intros e' m2 H1 H2 H3. rewrite Hmn in H3. rewrite HES in H1.
        destruct (edge_eq_dec e' e) as [->|Hn]; [|rewrite HWn; eauto]. rewrite HWe, Hm in *. injection H3 as <-. lia. }
      assert (Hfz : forall e', frozen k st e' -> frozen k st' e' /\ kW st' e' = kW st e').
      { intros e' H. assert (e' <> e) by congruence. rewrite HWn by auto. split; auto. destruct H as [H1 (m' & H2 & H3)]. split; auto. exists m'. rewrite Hmn, HWn; auto. }
      ands.
      + constructor.
        * destruct B. constructor; auto.
          -- intros e' H. destruct (kb_E1 e' H) as [H1 H2]. split; auto. assert (K := HWle e'). rewrite HW in *. destruct (edge_eq_dec e e') as [->|]; auto. lia.
          -- intros key e' t' H. unfold st' in H. cbn [k_push k_ws k_set_aut] in H. apply in_app_iff in H. destruct H as [H|[H|[]]]; [eapply kb_ws0; eauto|]. injection H as _ <- _. auto.
          -- intros e' H. rewrite HW. destruct (edge_eq_dec e e') as [->|]; auto.
        * intros e' H. destruct (co_ready _ _ _ _ CO e' H) as [m' H']. exists m'. auto.
        * intros key e' t' H. unfold st' in H. cbn [k_push k_ws k_set_aut] in H. apply in_app_iff in H. destruct H as [H|[H|[]]]; [eapply (co_ws _ _ _ _ CO); eauto|].
          injection H as <- <- _. split; auto. lia.
        * intros e' H. destruct (edge_eq_dec e' e) as [->|Hn].
          -- left. exists t, m. rewrite Hmn, HWe. split; auto. unfold st'. cbn [k_push k_ws]. apply in_app_iff. right; left; auto.
          -- destruct (co_pend _ _ _ _ CO e' H) as [(t' & m' & H1 & H2)|H1]; auto. left. exists t', m'. rewrite Hmn, HWn by auto. split; auto.
             unfold st'. cbn [k_push k_ws k_set_aut]. apply in_app_iff. auto.
        * intros e' H. destruct (co_C _ _ _ _ CO e' H) as (H1 & H2 & H3). ands; auto. apply Hfz; auto.
      + constructor; auto.
        right. right. split; auto. unfold mu2. apply sum_lt with (x0 := (e, t0)).
        * intros x Hx. assert (K := HWle (fst x)). lia.
        * exact F0.
        * cbn [fst]. rewrite HWe. lia.
      + split; auto. rewrite HWe. lia.
      + auto.
    - (* a new edge *)
      apply find_edge_None in F. change (~ In e (kES st)) in F.
      destruct (nth_error_ex _ (k_min st) (e_src e)) as [fo Efo]; [rewrite (kb_min _ B); auto|]. rewrite Efo. cbn [obind].
      set (st1 := k_set_aut X st _). set (bb := match fo with None => true | Some f => w + m <? f end). set (st2 := if bb then k_set_min X st1 (e_src e) (w + m) else st1). set (st' := k_push X st2 _ e t). exists st'. split; auto.
      assert (EA : k_aut st' = mk_waut (mk_aut (a_acc (wa_aut (k_aut st))) ((e, t) :: a_edges (wa_aut (k_aut st))) (a_ord (wa_aut (k_aut st)))) ((e, w) :: wa_w (k_aut st))).
      { unfold st', st2. cbn [k_push k_aut]. destruct bb; reflexivity. }
      assert (ER : k_rel st' = k_rel st /\ k_delta st' = k_delta st /\ k_popped st' = k_popped st /\ k_ws st' = k_ws st ++ [(w + m, (e, t))] /\ length (k_min st') = length (k_min st)).
      { unfold st', st2. cbn [k_push k_rel k_delta k_popped k_ws k_min]. destruct bb; cbn; ands; auto. apply upd_length. }
      destruct ER as (ER1 & ER2 & ER3 & ER4 & ER5).
      assert (HW : forall e', kW st' e' = if edge_eq_dec e e' then w else kW st e').
      { intros e'. unfold kW. rewrite EA. rewrite w_of_cons. destruct (edge_eq_dec e e'); auto. }
      assert (HWe : kW st' e = w) by (rewrite HW; destruct (edge_eq_dec e e); congruence).
      assert (HWn : forall e', In e' (kES st) -> kW st' e' = kW st e') by (intros e' Hn; rewrite HW; destruct (edge_eq_dec e e'); congruence).
      assert (HES : kES st' = e :: kES st) by (unfold kES; rewrite EA; reflexivity).
      (* _minpath changes only where nothing is ready *)
      assert (Hmn : forall q m', ready cur k st q m' -> mn st' q = Some m').
      { intros q m' R'. assert (M' := rd_min _ _ _ _ _ R'). assert (K' := rd_k _ _ _ _ _ R'). rewrite <- M'. unfold mn, st'. cbn [k_push k_min]. unfold st2.
        destruct (Nat.eq_dec (e_src e) q) as [Eq|Nq].
        - unfold mn in M'. rewrite <- Eq, Efo in M'. unfold bb. rewrite M'. destruct (Z.ltb_spec (w + m) m'); [lia|]. reflexivity.
        - destruct bb; auto. cbn [k_set_min k_min]. rewrite nth_error_upd_neq by auto. reflexivity. }
      assert (Hset : forall q, settled cur st q -> settled cur st' q) by (intros q; unfold settled; rewrite ER3; auto).
      assert (Hmd : forall e', In e' (kES st) -> mn st' (e_dst e') = mn st (e_dst e')).
      { intros e' H. destruct (co_ready _ _ _ _ CO e' H) as [m' R']. rewrite (Hmn _ _ R'). symmetry. apply R'. }
      assert (Hmde : mn st' (e_dst e) = Some m) by (apply Hmn; auto).
      assert (Hrd : forall q m', ready cur k st q m' -> ready cur k st' q m').
      { intros q m' R'. pose proof R' as [D1 D2 D3 D4 D5]. constructor; auto. intros e' m2 H1 H2 H3. rewrite HES in H1. destruct H1 as [<-|H1].
        - rewrite HWe, Hmde in *. injection H3 as <-. lia.
        - rewrite HWn by auto. rewrite Hmd in H3 by auto. eauto. }
      assert (Hfz : forall e', frozen k st e' -> frozen k st' e' /\ kW st' e' = kW st e').
      { intros e' [H1 (m' & H2 & H3)]. rewrite HWn by auto. split; auto. split; [rewrite HES; right; auto|]. exists m'. rewrite Hmd, HWn; auto. }
      ands; auto.
      + constructor.
        * destruct B. constructor; try (rewrite ?EA, ?ER3, ?ER5; cbn [wa_aut a_acc a_ord]; auto; fail).
          -- rewrite HES. constructor; auto.
          -- rewrite HES. intros e' [<-|H]; auto. unfold in_range. ands; auto.
          -- rewrite HES. intros e' [<-|H]; auto.
          -- intros e' H. destruct (kb_E1 e' H) as [H1 H2]. rewrite HES, HWn; auto. split; auto. right; auto.
          -- intros key e' t' H. rewrite HES. rewrite ER4 in H. apply in_app_iff in H. destruct H as [H|[H|[]]]; [right; eapply kb_ws0; eauto|]. injection H as _ <- _. left; auto.
          -- intros e' H. rewrite HES. rewrite ER1 in H. right; auto.
          -- intros s p id H. rewrite ER2 in H. destruct (kb_delta0 _ _ _ H) as (r & ls & H1 & H2 & H3). exists r, ls. ands; auto. rewrite HES. right; auto.
          -- rewrite HES. intros e' [<-|H]; [rewrite HWe; auto|rewrite HWn; auto].
        * rewrite HES. intros e' [<-|H]; [exists m; auto|]. destruct (co_ready _ _ _ _ CO e' H) as [m' H']. exists m'. auto.
        * intros key e' t' H. rewrite ER4 in H. apply in_app_iff in H. destruct H as [H|[H|[]]]; [eapply (co_ws _ _ _ _ CO); eauto|].
          injection H as <- <- _. split; auto. lia.
        * rewrite HES. intros e' [<-|H].
          -- left. exists t, m. rewrite Hmde, HWe. split; auto. rewrite ER4. apply in_app_iff. right; left; auto.
          -- destruct (co_pend _ _ _ _ CO e' H) as [(t' & m' & H1 & H2)|H1]; auto. left. exists t', m'. rewrite Hmd, HWn by auto. split; auto.
             rewrite ER4. apply in_app_iff. auto.
        * intros e' H. destruct (co_C _ _ _ _ CO e' H) as (H1 & H2 & H3). ands; auto. apply Hfz; auto. rewrite ER1; auto.
      + constructor; auto.
        * intros e' H. rewrite HES, HWn by auto. split; [right; auto|lia].
        * intros d H. rewrite ER2. auto.
        * right. left. unfold mu1. rewrite EA. cbn [wa_aut a_edges length].
          assert (K : (S (length (a_edges (wa_aut (k_aut st)))) <= N * pd_nlab P * N)%nat); [|lia].
          assert (K := universe_length P (wa_aut A0)). fold N in K. rewrite <- K. change (S (length (a_edges (wa_aut (k_aut st))))) with (length ((e, t) :: a_edges (wa_aut (k_aut st)))).
          rewrite <- (map_length fst). apply NoDup_incl_length; [cbn; constructor; auto; apply B|].
          cbn [map fst]. intros e' [<-|H]; (apply in_range_universe; [exact HnN|]); [unfold in_range; ands; auto|]. apply (kb_range _ B); auto.
      + split; [rewrite HES; left; auto|]. rewrite HWe. lia.
  Qed.

  Lemma kbulk_spec : forall cur C k st p ls q t w m, core cur C k st -> (p < n)%nat -> (q < N)%nat -> wf_labels (pd_nlab P) ls -> ready cur k st q m ->
    (forall l, matches (pd_nlab P) ls l -> deriv (mk_edge p (Some l) q) w) -> k <= w + m ->
    exists st', k_bulk P X st p ls q t w = Some st' /\ core cur C k st' /\ kle cur k st st' /\ k_delta st' = k_delta st /\
      (forall l, matches (pd_nlab P) ls l -> cov st' (mk_edge p (Some l) q) w).
  Proof.
    intros cur C k st p ls q t w m CO Hp Hq Wl RD HD Hk. unfold k_bulk.
    destruct (ofold_rule _ _ (fun st l => k_insert X st (mk_edge p (Some l) q) t w)
      (fun s => core cur C k s /\ kle cur k st s /\ k_delta s = k_delta st) (kle cur k) (fun l s => cov s (mk_edge p (Some l) q) w) (bulk_labels P ls)) with (s := st)
      as [st' [E1 [[E2 [E3 E3']] [E4 E5]]]].
    - apply kle_refl.
    - apply kle_trans.
    - intros; eapply kle_cov; eauto.
    - intros l s Hl [Cs [Ls Ds]]. apply (bulk_labels_In P (wa_aut A0) HnN) in Hl.
      destruct (kinsert_spec cur C k s (mk_edge p (Some l) q) t w m) as [s' [F1 [F2 [F3 [F4 F5]]]]]; auto.
      + unfold in_range; ands; cbn; auto; [fold N; lia|]. exists l; split; auto. eapply matches_lt; eauto.
      + apply (kl_ready _ _ _ _ Ls). auto.
      + exists s'. ands; auto. eapply kle_trans; eauto. congruence.
    - ands; auto using kle_refl.
    - exists st'. ands; auto. intros l Hl. apply E5. apply (bulk_labels_In P (wa_aut A0) HnN); auto.
  Qed.

  Lemma k_stored_in : forall st e, In e (kES st) -> k_stored X st e = Some (kW st e).
  Proof. intros st e H. unfold k_stored. destruct (find_edge_In _ _ H) as [t E]. rewrite E. auto. Qed.

  Lemma kdelta_spec : forall cur C k st t w m, core cur C k st -> In t (kES st) -> deriv t w -> ready cur k st (e_dst t) m -> k <= w + m ->
    exists st', k_delta_loop P X st t w = Some st' /\ core cur C k st' /\ kle cur k st st' /\ k_delta st' = k_delta st /\
      (forall p id r ls, In (e_src t, (p, id)) (k_delta st) -> get_rule P p id = Some (r, ls) -> contains_lab ls (e_lab t) = true ->
         frozen k st (mk_edge (r_to r) (Some (r_opl r)) (e_src t)) ->
         cov st' (mk_edge p (e_lab t) (e_dst t)) (r_w r + kW st (mk_edge (r_to r) (Some (r_opl r)) (e_src t)) + w)).
  Proof.
    intros cur C k st t w m CO Ht HD RD Hk. pose proof (co_base _ _ _ _ CO) as B. unfold k_delta_loop, k_delta_of, k_size. rewrite (kbase_size _ B).
    pose proof (kb_range _ B _ Ht) as Hr. destruct Hr as [R1 [R2 [l [R3 R4]]]].
    assert (R1b := R1). apply Nat.ltb_lt in R1b. fold N in R1b. rewrite R1b. cbn [obind].
    set (ds := rev (map snd (filter (fun d => Nat.eqb (fst d) (e_src t)) (k_delta st)))).
    assert (Hds: forall p id, In (p, id) ds <-> In (e_src t, (p, id)) (k_delta st)).
    { intros p id. unfold ds. rewrite <- in_rev, in_map_iff. split.
      - intros [[s d] [E H]]. cbn in E; subst d. apply filter_In in H. destruct H as [H1 H2]. cbn in H2. apply Nat.eqb_eq in H2; subst; auto.
      - intros H. exists (e_src t, (p, id)); split; auto. apply filter_In; split; auto. cbn; apply Nat.eqb_refl. }
    destruct (ofold_rule _ _ (fun st (d : nat * nat) =>
      rl <- get_rule P (fst d) (snd d) ;;
      if contains_lab (snd rl) (e_lab t) then
        w1 <- k_stored X st (mk_edge (r_to (fst rl)) (Some (r_opl (fst rl))) (e_src t)) ;;
        k_insert X st (mk_edge (fst d) (e_lab t) (e_dst t)) (TPre (snd d) (Some (e_src t))) (r_w (fst rl) + w1 + w)%Z
      else Some st) (fun s => core cur C k s /\ kle cur k st s /\ k_delta s = k_delta st) (kle cur k)
      (fun d s => forall r ls, get_rule P (fst d) (snd d) = Some (r, ls) -> contains_lab ls (e_lab t) = true ->
         frozen k st (mk_edge (r_to r) (Some (r_opl r)) (e_src t)) ->
         cov s (mk_edge (fst d) (e_lab t) (e_dst t)) (r_w r + kW st (mk_edge (r_to r) (Some (r_opl r)) (e_src t)) + w)) ds)
      with (s := st) as [st' [E1 [[E2 [E3 E3']] [E4 E5]]]].
    - apply kle_refl.
    - apply kle_trans.
    - intros. eapply kle_cov; eauto.
    - intros [p id] s Hd [Cs [Ls Ds]]. cbn [fst snd]. apply Hds in Hd. destruct (kb_delta _ B _ _ _ Hd) as [r [ls [G1 [G2 G3]]]].
      rewrite G1; cbn [obind fst snd]. destruct (get_rule_facts P WP _ _ _ _ G1) as [K1 [K2 K3]].
      destruct (contains_lab ls (e_lab t)) eqn:Cn.
      + destruct (kl_ES _ _ _ _ Ls _ G3) as [G4 _]. rewrite (k_stored_in _ _ G4). cbn [obind].
        assert (D1 := kb_der _ (co_base _ _ _ _ Cs) _ G4). assert (N1 := kW_nonneg _ _ (co_base _ _ _ _ Cs) G4). assert (N2 := NN _ _ _ _ G1).
        assert (Hm : matches (pd_nlab P) ls l) by (eapply (contains_matches P (wa_aut A0) ls t); eauto; unfold in_range; ands; eauto).
        destruct (kinsert_spec cur C k s (mk_edge p (e_lab t) (e_dst t)) (TPre id (Some (e_src t)))
           (r_w r + kW s (mk_edge (r_to r) (Some (r_opl r)) (e_src t)) + w) m) as [s' [F1 [F2 [F3 [F4 F5]]]]]; auto.
        * unfold in_range; cbn; ands; auto; [fold N; fold n in K1; lia|]. eauto.
        * apply (kl_ready _ _ _ _ Ls). auto.
        * rewrite R3. eapply kd_push; eauto. rewrite <- R3. destruct t; exact HD.
        * cbn. lia.
        * exists s'. ands; auto; [eapply kle_trans; eauto|congruence|]. intros r' ls' G' _ Fz. injection G' as <- <-.
          destruct (kl_frozen _ _ _ _ Ls _ Fz) as [_ <-]. exact F4.
      + exists s. ands; auto using kle_refl. intros r' ls' G. injection G as <- <-. congruence.
    - ands; auto using kle_refl.
    - exists st'. ands; auto. intros p id r ls Hd G Cn Fz. eapply (E5 (p, id)); cbn; eauto. apply Hds; auto.
  Qed.

  (** What processing an edge leaves behind. *)
  Definition kpopped_ok (st : pk_st X) : Prop := forall q p id r ls l,
    nth_error (k_popped st) q = Some true -> In (id, (r, ls)) (visited (rules_at P p) q) -> r_op r = POP ->
    matches (pd_nlab P) ls l -> cov st (mk_edge p (Some l) q) (r_w r).
  Definition kdelta_ok (C : edge -> Prop) (st : pk_st X) : Prop := forall s p id r ls e2,
    In (s, (p, id)) (k_delta st) -> get_rule P p id = Some (r, ls) -> C (mk_edge (r_to r) (Some (r_opl r)) s) -> C e2 -> e_src e2 = s ->
    contains_lab ls (e_lab e2) = true ->
    cov st (mk_edge p (e_lab e2) (e_dst e2)) (r_w r + kW st (mk_edge (r_to r) (Some (r_opl r)) s) + kW st e2).
  Definition krule_done (st : pk_st X) (t : edge) (w : Z) (p id : nat) (r : rule) (ls : labels) : Prop :=
    match r_op r with
    | POP => forall l, matches (pd_nlab P) ls l -> cov st (mk_edge p (Some l) (e_src t)) (r_w r)
    | SWAP => e_lab t = Some (r_opl r) -> forall l, matches (pd_nlab P) ls l -> cov st (mk_edge p (Some l) (e_dst t)) (w + r_w r)
    | NOOP => contains_lab ls (e_lab t) = true -> cov st (mk_edge p (e_lab t) (e_dst t)) (w + r_w r)
    | PUSH => e_lab t = Some (r_opl r) -> In (e_dst t, (p, id)) (k_delta st)
    end.
  Definition kpairs (C : edge -> Prop) (st : pk_st X) (t : edge) (w : Z) (p : nat) (r : rule) (ls : labels) : Prop :=
    r_op r = PUSH -> e_lab t = Some (r_opl r) -> forall e2, C e2 -> e_src e2 = e_dst t -> contains_lab ls (e_lab e2) = true ->
    cov st (mk_edge p (e_lab e2) (e_dst e2)) (kW st e2 + w + r_w r).
  Definition krules_ok (C : edge -> Prop) (st : pk_st X) : Prop := forall t p id r ls, C t ->
    In (id, (r, ls)) (visited (rules_at P p) (e_src t)) -> krule_done st t (kW st t) p id r ls.

  Lemma krule_done_mono : forall cur k st st' t w p id r ls, kle cur k st st' -> krule_done st t w p id r ls -> krule_done st' t w p id r ls.
  Proof.
    intros cur k st st' t w p id r ls L H. unfold krule_done in *. destruct (r_op r); intros; try (eapply kle_cov; eauto). apply (kl_delta _ _ _ _ L). auto.
  Qed.

  Definition kleC (cur : option nat) (C : edge -> Prop) (k : Z) (a b : pk_st X) : Prop := kle cur k a b /\ forall e, C e -> kW b e = kW a e.
  Lemma kleC_refl : forall cur C k st, kleC cur C k st st.
  Proof. intros; split; auto using kle_refl. Qed.
  Lemma kleC_trans : forall cur C k a b c, kleC cur C k a b -> kleC cur C k b c -> kleC cur C k a c.
  Proof. intros cur C k a b c [A1 A2] [B1 B2]. split; [eapply kle_trans; eauto|]. intros e H. rewrite B2, A2; auto. Qed.
  Lemma kle_kleC : forall cur C k a b, core cur C k a -> kle cur k a b -> kleC cur C k a b.
  Proof. intros cur C k a b CO L. split; auto. intros e H. apply (kl_frozen _ _ _ _ L). apply (co_C _ _ _ _ CO); auto. Qed.
  Lemma kpairs_mono : forall cur C k st st' t w p r ls, kleC cur C k st st' -> kpairs C st t w p r ls -> kpairs C st' t w p r ls.
  Proof.
    intros cur C k st st' t w p r ls [L HC] H H1 H2 e2 H3 H4 H5. rewrite (HC _ H3). eapply kle_cov; eauto.
  Qed.
  Lemma kpopped_mono : forall cur k st st', kle cur k st st' -> kpopped_ok st -> kpopped_ok st'.
  Proof. intros cur k st st' L H q p id r ls l H1 H2 H3 H4. rewrite (kl_popped _ _ _ _ L) in H1. eapply kle_cov; eauto. Qed.

  Lemma kcore_delta : forall cur C k st d p id r ls, core cur C k st -> get_rule P p id = Some (r, ls) -> r_op r = PUSH ->
    In (mk_edge (r_to r) (Some (r_opl r)) d) (kES st) ->
    core cur C k (k_add_delta X st (d, (p, id))) /\ kleC cur C k st (k_add_delta X st (d, (p, id))).
  Proof.
    intros cur C k st d p id r ls CO G Ho He. split.
    - destruct CO as [B C1 C2 C3 C4]. constructor; auto.
      + destruct B. constructor; auto. intros s p' id' [H|H]; auto. injection H as <- <- <-. exists r, ls. auto.
      + intros e H. destruct (C1 e H) as [m [D1 D2 D3 D4 D5]]. exists m. constructor; auto.
    - split; auto. constructor; auto.
      + intros e H. split; auto. change (kW st e <= kW st e). lia.
      + intros q m [D1 D2 D3 D4 D5]. constructor; auto.
      + intros x Hx. right; auto.
      + left. unfold mu_eq. auto.
  Qed.

  (** Where new entries of delta' come from. *)
  Definition dnew (t : edge) (st s : pk_st X) : Prop := forall d p id, In (d, (p, id)) (k_delta s) -> In (d, (p, id)) (k_delta st) \/
    (d = e_dst t /\ forall r ls, get_rule P p id = Some (r, ls) -> r_to r = e_src t /\ Some (r_opl r) = e_lab t).

  Lemma krule_spec : forall C k t w m pre id r ls s, let cur := Some (e_src t) in core cur C k s -> kpopped_ok s -> In t (kES s) -> In t (k_rel s) -> deriv t w ->
    ready cur k s (e_dst t) m -> k <= w + m ->
    (nth_error (k_popped s) (e_src t) = Some false -> exists ms, ready cur k s (e_src t) ms /\ k <= ms) ->
    In (id, (r, ls)) (visited (rules_at P pre) (e_src t)) ->
    exists s', k_rule P X t w pre s (id, (r, ls)) = Some s' /\ core cur C k s' /\ kleC cur C k s s' /\
      krule_done s' t w pre id r ls /\ kpairs C s' t w pre r ls /\ dnew t s s'.
  Proof.
    intros C k t w m pre id r ls s cur CO HP Ht Htr HD RD Hk HS Hv. pose proof (co_base _ _ _ _ CO) as B.
    destruct (visited_facts P WP _ _ _ _ _ Hv) as [V1 [V2 [V3 [V4 V5]]]]. fold n in V1, V2.
    pose proof (kb_range _ B _ Ht) as Hr. destruct Hr as [R1 [R2 [l [R3 R4]]]]. fold N in R1, R2. assert (NR := NN _ _ _ _ V4).
    assert (NPn : r_op r <> PUSH -> forall s', kpairs C s' t w pre r ls) by (intros H s' H'; congruence).
    assert (DN : forall s', k_delta s' = k_delta s -> dnew t s s') by (intros s' E d p i H; rewrite E in H; auto).
    unfold k_rule. cbn [fst snd]. unfold krule_done. destruct (r_op r) eqn:Er.
    - (* PUSH *)
      rewrite R3. cbn [lab_eqb]. destruct (Nat.eqb (r_opl r) l) eqn:El.
      2:{ apply Nat.eqb_neq in El. exists s. ands; auto using kleC_refl; [intros E; congruence|intros _ E; congruence]. }
      apply Nat.eqb_eq in El; subst l.
      assert (Et : mk_edge (r_to r) (Some (r_opl r)) (e_dst t) = t) by (rewrite V3, <- R3; destruct t; auto).
      destruct (kcore_delta cur C k s (e_dst t) pre id r ls CO V4 Er) as [C1 L1]; [rewrite Et; auto|].
      set (s1 := k_add_delta X s (e_dst t, (pre, id))) in *.
      unfold k_rel_of, k_size. rewrite (kbase_size _ (co_base _ _ _ _ C1)). assert (R2b := R2). apply Nat.ltb_lt in R2b. rewrite R2b. cbn [obind].
      set (rs := rev (filter (fun e => Nat.eqb (e_src e) (e_dst t)) (k_rel s1))).
      assert (Hrs: forall e, In e rs <-> In e (k_rel s) /\ e_src e = e_dst t).
      { intros e. unfold rs. rewrite <- in_rev, filter_In, Nat.eqb_eq. tauto. }
      destruct (ofold_rule _ _ (fun st e =>
            if contains_lab ls (e_lab e) then
              w2 <- k_stored X st e ;;
              k_insert X st (mk_edge pre (e_lab e) (e_dst e)) (TPre id (Some (e_dst t))) (w2 + w + r_w r)%Z
            else Some st) (fun s' => core cur C k s' /\ kleC cur C k s1 s' /\ k_delta s' = k_delta s1) (kleC cur C k)
            (fun e s' => C e -> contains_lab ls (e_lab e) = true -> cov s' (mk_edge pre (e_lab e) (e_dst e)) (kW s' e + w + r_w r)) rs)
        with (s := s1) as [s' [E1 [[E2 [E3 E3']] [E4 E5]]]].
      + apply kleC_refl.
      + apply kleC_trans.
      + intros e a b H L H1 H2. rewrite (proj2 L) by auto. eapply kle_cov; [apply L|auto].
      + intros e s0 He [Cs [Ls Ds]]. apply Hrs in He. destruct He as [He1 He2]. assert (He1' := kb_rel _ B _ He1).
        destruct (contains_lab ls (e_lab e)) eqn:Cn; [|exists s0; ands; auto using kleC_refl; discriminate].
        pose proof (kb_range _ B _ He1') as Hr'. destruct Hr' as [Q1 [Q2 [l' [Q3 Q4]]]].
        assert (Hs0 : In e (kES s0)). { apply (kl_ES _ _ _ _ (proj1 Ls)). exact He1'. }
        rewrite (k_stored_in _ _ Hs0). cbn [obind]. pose proof (co_base _ _ _ _ Cs) as B0.
        destruct (co_ready _ _ _ _ Cs e Hs0) as [m2 RD2].
        assert (RD0 : ready cur k s0 (e_dst t) m). { apply (kl_ready _ _ _ _ (proj1 Ls)). apply (kl_ready _ _ _ _ (proj1 L1)). auto. }
        assert (LE := rd_edge _ _ _ _ _ RD0 e m2 Hs0 He2 (rd_min _ _ _ _ _ RD2)).
        destruct (kinsert_spec cur C k s0 (mk_edge pre (e_lab e) (e_dst e)) (TPre id (Some (e_dst t))) (kW s0 e + w + r_w r) m2) as [s' [F1 [F2 [F3 [F4 F5]]]]]; auto.
        * unfold in_range; cbn; ands; auto; [fold N; lia|]. eauto.
        * rewrite Q3. replace (kW s0 e + w + r_w r) with (r_w r + w + kW s0 e) by lia. eapply kd_push; eauto.
          -- eapply (contains_matches P (wa_aut A0) ls e); eauto. unfold in_range; ands; eauto.
          -- rewrite Et. exact HD.
          -- rewrite <- Q3, <- He2. assert (K := kb_der _ B0 _ Hs0). destruct e; exact K.
        * cbn [e_dst]. lia.
        * assert (LC := kle_kleC _ _ _ _ _ Cs F3). exists s'. ands; auto; [eapply kleC_trans; eauto|congruence|].
          intros HC _. rewrite (proj2 LC) by auto. exact F4.
      + ands; auto using kleC_refl.
      + exists s'. ands; auto.
        * eapply kleC_trans; eauto.
        * intros _. rewrite E3'. left; auto.
        * intros _ _ e2 H1 H2 H3. apply E5; auto. apply Hrs. split; auto. apply (co_C _ _ _ _ CO); auto.
        * intros d p i H. rewrite E3' in H. destruct H as [H|H]; auto. injection H as <- <- <-. right. split; auto. intros r' ls' G. rewrite V4 in G. injection G as <- <-. auto.
    - (* POP *)
      destruct (nth_error_ex _ (k_popped s) (e_src t)) as [b Eb]; [rewrite (kb_pop _ B); auto|].
      rewrite Eb; cbn [obind]. destruct b.
      + exists s. ands; auto using kleC_refl; [|apply NPn; discriminate]. intros. eapply HP; eauto.
      + destruct (HS Eb) as (ms & RS & Hms).
        destruct (kbulk_spec cur C k s pre ls (e_src t) (TPre id None) (r_w r) ms) as [s' [F1 [F2 [F3 [F4 F5]]]]]; auto; try lia.
        * intros. rewrite <- V3. eapply kd_pop; eauto.
        * exists s'. ands; auto using kle_kleC. apply NPn; discriminate.
    - (* SWAP *)
      rewrite R3. cbn [lab_eqb]. destruct (Nat.eqb (r_opl r) l) eqn:El.
      2:{ apply Nat.eqb_neq in El. exists s. ands; auto using kleC_refl; [intros E; congruence|intros _ E; congruence]. }
      apply Nat.eqb_eq in El; subst l.
      assert (Et : mk_edge (r_to r) (Some (r_opl r)) (e_dst t) = t) by (rewrite V3, <- R3; destruct t; auto).
      destruct (kbulk_spec cur C k s pre ls (e_dst t) (TPre id None) (w + r_w r) m) as [s' [F1 [F2 [F3 [F4 F5]]]]]; auto; try lia.
      + intros l' Hl'. eapply kd_swap; eauto. rewrite Et. auto.
      + exists s'. ands; auto using kle_kleC. apply NPn; discriminate.
    - (* NOOP *)
      destruct (contains_lab ls (e_lab t)) eqn:Cn.
      2:{ exists s. ands; auto using kleC_refl; [discriminate|apply NPn; discriminate]. }
      assert (Et : mk_edge (r_to r) (Some l) (e_dst t) = t) by (rewrite V3, <- R3; destruct t; auto).
      destruct (kinsert_spec cur C k s (mk_edge pre (e_lab t) (e_dst t)) (TPre id None) (w + r_w r) m) as [s' [F1 [F2 [F3 [F4 F5]]]]]; auto.
      + unfold in_range; cbn; ands; auto; [fold N; lia|]. eauto.
      + rewrite R3. eapply kd_noop; eauto; [|rewrite Et; auto]. eapply (contains_matches P (wa_aut A0) ls t); eauto. unfold in_range; ands; eauto.
      + lia.
      + exists s'. ands; auto using kle_kleC. apply NPn; discriminate.
  Qed.

  (** The callback's state, _found and the number of pops do not matter. *)
  Definition same (a b : pk_st X) : Prop :=
    k_aut a = k_aut b /\ k_ws a = k_ws b /\ k_rel a = k_rel b /\ k_delta a = k_delta b /\ k_popped a = k_popped b /\ k_min a = k_min b.
  Lemma same_refl : forall a, same a a.
  Proof. intros; unfold same; ands; auto. Qed.
  Lemma same_sym : forall a b, same a b -> same b a.
  Proof. intros a b (H1 & H2 & H3 & H4 & H5 & H6). unfold same; ands; auto. Qed.
  Lemma ready_same : forall cur k a b q m, same a b -> ready cur k a q m -> ready cur k b q m.
  Proof.
    intros cur k [a1 a2 a3 a4 a5 a6 a7 a8 a9] [b1 b2 b3 b4 b5 b6 b7 b8 b9] q m (H1 & H2 & H3 & H4 & H5 & H6) [D1 D2 D3 D4 D5].
    cbn in *; subst. constructor; auto.
  Qed.
  Lemma core_same : forall cur C k a b, same a b -> core cur C k a -> core cur C k b.
  Proof.
    intros cur C k a b S [[B1 B2 B3 B4 B5 B6 B7 B8 B9 B10 B11 B12] C1 C2 C3 C4]. pose proof S as (H1 & H2 & H3 & H4 & H5 & H6).
    constructor.
    - constructor; unfold kES, kW in *; rewrite <- ?H1, <- ?H2, <- ?H3, <- ?H4, <- ?H5, <- ?H6; auto.
    - intros e H. destruct (C1 e) as [m R]; [unfold kES in *; rewrite H1; auto|]. exists m. eapply ready_same; eauto.
    - rewrite <- H2. auto.
    - unfold kES, pend, kW, mn in *. rewrite <- H1, <- H2, <- H6. auto.
    - unfold frozen, kES, kW, mn, settled in *. rewrite <- H1, <- H3, <- H5, <- H6. auto.
  Qed.

  Record kinv (C : edge -> Prop) (k : Z) (st : pk_st X) : Prop := {
    ki_core : core None C k st;
    ki_popped : kpopped_ok st;
    ki_rules : krules_ok C st;
    ki_delta : kdelta_ok C st;
    ki_acc : forall q, (q < n)%nat -> accepting (wa_aut A0) q = Some true -> nth_error (k_popped st) q = Some true }.
  Lemma kinv_same : forall C k a b, same a b -> kinv C k a -> kinv C k b.
  Proof.
    intros C k a b S [I1 I2 I3 I4 I5]. constructor; [eapply core_same; eauto|..]; destruct S as (H1 & H2 & H3 & H4 & H5 & H6).
    - unfold kpopped_ok, cov, kES, kW in *. rewrite <- H1, <- H5. auto.
    - unfold krules_ok, krule_done, cov, kES, kW in *. rewrite <- H1, <- H4. auto.
    - unfold kdelta_ok, cov, kES, kW in *. rewrite <- H1, <- H4. auto.
    - rewrite <- H5. auto.
  Qed.

  (** Popping an entry. *)
  Definition k_pop (i : nat) (st : pk_st X) : pk_st X :=
    mk_pk (k_aut st) (remove_at i (k_ws st)) (k_rel st) (k_delta st) (k_popped st) (k_min st) (k_found st) (S (k_pops st)) (k_x st).

  (** The state in which an edge is processed. *)
  Record kmid (C : edge -> Prop) (key : Z) (t : edge) (st : pk_st X) (m : Z) : Prop := {
    km_core : core (Some (e_src t)) C key st;
    km_popped : kpopped_ok st;
    km_in : In t (kES st);
    km_rel : In t (k_rel st);
    km_ready : ready (Some (e_src t)) key st (e_dst t) m;
    km_key : key <= kW st t + m;
    km_src : nth_error (k_popped st) (e_src t) = Some false -> exists ms, ready (Some (e_src t)) key st (e_src t) ms /\ key <= ms }.

  Lemma kmid_same : forall C key t a b m, same a b -> kmid C key t a m -> kmid C key t b m.
  Proof.
    intros C key t a b m S [I1 I2 I3 I4 I5 I6 I7]. assert (S' := S). destruct S' as (H1 & H2 & H3 & H4 & H5 & H6).
    constructor; [eapply core_same; eauto|..].
    - unfold kpopped_ok, cov, kES, kW in *. rewrite <- H1, <- H5. auto.
    - unfold kES in *. rewrite <- H1. auto.
    - rewrite <- H3. auto.
    - eapply ready_same; eauto.
    - unfold kW in *. rewrite <- H1. auto.
    - rewrite <- H5. intros H. destruct (I7 H) as (ms & R & L). exists ms. split; auto. eapply ready_same; eauto.
  Qed.

  Lemma kpop_spec : forall C k st i key t tr pq, kinv C k st -> nth_error (k_ws st) i = Some (key, (t, tr)) ->
    (forall x, In x (k_ws st) -> key <= fst x) ->
    ((e_src t < n)%nat -> nth_error (k_popped st) (e_src t) = Some pq) ->
    let st0 := k_pop i st in let st1 := if (pq : bool) then st0 else k_set_min X st0 (e_src t) key in
    In t (kES st) /\ 0 <= key /\ k <= key /\ exists m, mn st1 (e_dst t) = Some m /\
    (kW st t + m < key -> pq = true /\ kinv C key st0) /\
    (key <= kW st t + m -> kmid (fun e => C e \/ (e = t /\ key = kW st t + m)) key t (k_add_rel X st1 t) m).
  Proof.
    intros C k st i key t tr pq [CO IP IR ID IA] Ex Hmin Hpq st0 st1. pose proof (co_base _ _ _ _ CO) as B.
    destruct (remove_at_split _ _ _ _ Ex) as (l1 & l2 & El & Er).
    assert (Ht : In t (kES st)) by (eapply (kb_ws _ B); rewrite El; apply in_elt).
    destruct (co_ready _ _ _ _ CO t Ht) as [m RD]. assert (Hm := rd_min _ _ _ _ _ RD). assert (Hmk := rd_k _ _ _ _ _ RD).
    destruct (co_ws _ _ _ _ CO key t tr) as [Hk Hk0]; [rewrite El; apply in_elt|].
    pose proof (kb_range _ B _ Ht) as Hr. destruct Hr as [R1 [R2 [l [R3 R4]]]]. fold N in R1, R2.
    assert (HWt := kW_nonneg _ _ B Ht).
    assert (Hsub : forall x, In x (k_ws st0) -> In x (k_ws st)).
    { intros x. unfold st0, k_pop. cbn [k_ws]. rewrite Er, El, !in_app_iff. cbn. tauto. }
    assert (Hrem : forall x, In x (k_ws st) -> In x (k_ws st0) \/ x = (key, (t, tr))).
    { intros x. unfold st0, k_pop. cbn [k_ws]. rewrite Er, El, !in_app_iff. cbn. intros [H|[H|H]]; auto. }
    (* _minpath of targets is not changed *)
    assert (Hmn1 : forall q m', ready None k st q m' -> mn st1 q = Some m').
    { intros q m' R. rewrite <- (rd_min _ _ _ _ _ R). unfold st1. destruct pq eqn:Epq; auto. unfold mn. cbn [k_set_min k_min st0 k_pop].
      destruct (Nat.eq_dec (e_src t) q) as [<-|Nq]; [|rewrite nth_error_upd_neq; auto].
      destruct (lt_dec (e_src t) n) as [L|L].
      - destruct (rd_set _ _ _ _ _ R) as [H|[H|H]]; [lia| |discriminate]. rewrite Hpq in H by auto. discriminate.
      - assert (L' : (n <= e_src t)%nat) by lia. assert (M0 := rd_out _ _ _ _ _ R L'). assert (K0 := Hk0 L').
        rewrite nth_error_upd_eq by (rewrite (kb_min _ B); auto). assert (Mq := rd_min _ _ _ _ _ R). unfold mn in Mq. rewrite Mq. congruence. }
    assert (Hmd : forall e, In e (kES st) -> mn st1 (e_dst e) = mn st (e_dst e)).
    { intros e H. destruct (co_ready _ _ _ _ CO e H) as [m' R']. rewrite (Hmn1 _ _ R'). symmetry. apply R'. }
    split; [auto|]. split; [lia|]. split; [auto|]. exists m. split; [apply Hmn1; auto|]. split.
    - (* stale *)
      intros Hlt. destruct (lt_dec (e_src t) n) as [L|L].
      2:{ assert (key = 0) by (apply Hk0; lia). lia. }
      assert (Hpt : nth_error (k_popped st) (e_src t) = Some true).
      { destruct (co_pend _ _ _ _ CO t Ht) as [(tr' & m' & P1 & P2)|HC].
        - rewrite Hm in P1. injection P1 as <-. apply Hmin in P2. cbn in P2. lia.
        - destruct (co_C _ _ _ _ CO t HC) as (_ & _ & S1). destruct (S1 L) as [H|[H|H]]; [lia|auto|discriminate]. }
      assert (Epq : pq = true) by (rewrite Hpq in Hpt by auto; congruence). split; auto.
      constructor; auto. constructor.
      + destruct B. constructor; auto. intros key' e' t' H. apply Hsub in H. eapply kb_ws0; eauto.
      + intros e H. destruct (co_ready _ _ _ _ CO e H) as [m' [D1 D2 D3 D4 D5]]. exists m'. constructor; auto. lia.
      + intros key' e' t' H. apply Hsub in H. split; [apply (Hmin _ H)|]. apply (co_ws _ _ _ _ CO _ _ _ H).
      + intros e H. destruct (co_pend _ _ _ _ CO e H) as [(tr' & m' & P1 & P2)|HC]; auto. left. exists tr', m'. split; auto.
        destruct (Hrem _ P2) as [|E]; auto. injection E as E1 -> _. rewrite Hm in P1. injection P1 as <-. change (kW st t + m = key) in E1. lia.
      + intros e H. destruct (co_C _ _ _ _ CO e H) as ([F1 (m' & F2 & F3)] & F4 & F5). ands; auto. split; auto. exists m'. split; auto. change (kW st0 e) with (kW st e). lia.
    - intros Hge. set (C' := fun e => C e \/ (e = t /\ key = kW st t + m)). set (st2 := k_add_rel X st1 t).
      assert (EA : k_aut st2 = k_aut st) by (unfold st2, st1; destruct pq; reflexivity).
      assert (EW : k_ws st2 = k_ws st0) by (unfold st2, st1; destruct pq; reflexivity).
      assert (ER : k_rel st2 = t :: k_rel st) by (unfold st2, st1; destruct pq; reflexivity).
      assert (ED : k_delta st2 = k_delta st) by (unfold st2, st1; destruct pq; reflexivity).
      assert (EP : k_popped st2 = k_popped st) by (unfold st2, st1; destruct pq; reflexivity).
      assert (EM : length (k_min st2) = length (k_min st)) by (unfold st2, st1; destruct pq; cbn; auto; apply upd_length).
      assert (Emn : forall q, mn st2 q = mn st1 q) by reflexivity.
      assert (EES : kES st2 = kES st) by (unfold kES; rewrite EA; auto).
      assert (EKW : forall e, kW st2 e = kW st e) by (intros; unfold kW; rewrite EA; auto).
      assert (Hset : forall q, settled None st q -> settled (Some (e_src t)) st2 q).
      { intros q [H|[H|H]]; [left; auto|right; left; rewrite EP; auto|discriminate]. }
      assert (Hrd : forall q m', ready None k st q m' -> ready (Some (e_src t)) key st2 q m').
      { intros q m' R. pose proof R as [D1 D2 D3 D4 D5]. constructor; auto.
        - rewrite Emn. auto.
        - lia.
        - intros e m2 H1 H2 H3. rewrite EES in H1. rewrite EKW. rewrite Emn, Hmd in H3 by auto. eauto. }
      assert (Hfz : forall e, frozen k st e -> frozen key st2 e).
      { intros e [F1 (m' & F2 & F3)]. split; [rewrite EES; auto|]. exists m'. rewrite Emn, Hmd, EKW by auto. split; auto. lia. }
      constructor.
      + constructor.
        * destruct B. constructor; rewrite ?EA, ?EP, ?EM; auto.
          -- rewrite EES; auto.
          -- rewrite EES; auto.
          -- rewrite EES; auto.
          -- intros e H. rewrite EES, EKW. auto.
          -- intros key' e' t' H. rewrite EW in H. rewrite EES. apply Hsub in H. eapply kb_ws0; eauto.
          -- intros e H. rewrite EES. rewrite ER in H. destruct H as [<-|H]; auto.
          -- intros s p id H. rewrite ED in H. rewrite EES. auto.
          -- intros e H. rewrite EES in H. rewrite EKW. auto.
        * intros e H. rewrite EES in H. destruct (co_ready _ _ _ _ CO e H) as [m' R']. exists m'. auto.
        * intros key' e' t' H. rewrite EW in H. apply Hsub in H. split; [apply (Hmin _ H)|]. apply (co_ws _ _ _ _ CO _ _ _ H).
        * intros e H. rewrite EES in H. destruct (co_pend _ _ _ _ CO e H) as [(tr' & m' & P1 & P2)|HC]; [|right; left; auto].
          destruct (Hrem _ P2) as [H1|E]; [left; exists tr', m'; rewrite Emn, Hmd, EKW, EW by auto; auto|].
          injection E as E1 -> _. rewrite Hm in P1. injection P1 as <-. right. right. split; auto.
        * intros e [H|[-> H]].
          -- destruct (co_C _ _ _ _ CO e H) as (F1 & F2 & F3). ands; auto. rewrite ER. right; auto.
          -- ands; [|rewrite ER; left; auto|right; right; auto]. split; [rewrite EES; auto|]. exists m. rewrite Emn, Hmd, EKW by auto. split; auto. lia.
      + intros q p id r ls l' H1 H2 H3 H4. rewrite EP in H1. destruct (IP q p id r ls l' H1 H2 H3 H4) as [F1 F2]. split; [rewrite EES; auto|rewrite EKW; auto].
      + rewrite EES; auto.
      + rewrite ER. left; auto.
      + auto.
      + rewrite EKW. auto.
      + rewrite EP. intros Hf. assert (L : (e_src t < n)%nat). { rewrite <- (kb_pop _ B). apply nth_error_Some. congruence. }
        exists key. split; [|lia]. rewrite Hpq in Hf by auto. injection Hf as Hf. constructor.
        * rewrite Emn. unfold st1. rewrite Hf. unfold mn. cbn [k_set_min k_min st0 k_pop]. rewrite nth_error_upd_eq by (rewrite (kb_min _ B); auto). auto.
        * lia.
        * right; right; auto.
        * lia.
        * intros e m' H1 H2 H3. rewrite EES in H1. rewrite EKW. rewrite Emn, Hmd in H3 by auto.
          destruct (co_pend _ _ _ _ CO e H1) as [(tr' & m2 & P1 & P2)|HC].
          -- rewrite H3 in P1. injection P1 as <-. apply (Hmin _ P2).
          -- destruct (co_C _ _ _ _ CO e HC) as (_ & _ & S1). rewrite H2 in S1. destruct (S1 L) as [H|[H|H]]; [lia| |discriminate]. rewrite Hpq in H by auto. congruence.
  Qed.

  Definition k_rest (st : pk_st X) (t : edge) (w : Z) : option (pk_st X) :=
    st3 <- k_delta_loop P X st t w ;;
    if Nat.leb (pd_n P) (e_src t) then Some st3
    else
      s <- nth_error (pd_states P) (e_src t) ;;
      st4 <- ofold (fun st pre =>
               s' <- nth_error (pd_states P) pre ;;
               ofold (k_rule P X t w pre) (visited (ps_rules s') (e_src t)) st) (ps_pre s) st3 ;;
      Some (k_set_popped X st4 (e_src t)).

  Lemma core_pop : forall C k st q, core (Some q) C k st -> (q < n)%nat -> core None C k (k_set_popped X st q).
  Proof.
    intros C k st q [B C1 C2 C3 C4] Hq. set (st' := k_set_popped X st q).
    assert (Hs : forall x, settled (Some q) st x -> settled None st' x).
    { intros x [H|[H|H]]; [left; auto|right; left..].
      - unfold st'. cbn [k_set_popped k_popped]. destruct (Nat.eq_dec q x) as [->|]; [|rewrite nth_error_upd_neq; auto]. apply nth_error_upd_eq. rewrite (kb_pop _ B). auto.
      - injection H as ->. unfold st'. cbn [k_set_popped k_popped]. apply nth_error_upd_eq. rewrite (kb_pop _ B). auto. }
    constructor; auto.
    - destruct B. constructor; auto. unfold st'. cbn [k_set_popped k_popped]. rewrite upd_length. auto.
    - intros e H. destruct (C1 e H) as [m [D1 D2 D3 D4 D5]]. exists m. constructor; auto.
    - intros e H. destruct (C4 e H) as (F1 & F2 & F3). ands; auto.
  Qed.
  Lemma core_out : forall C k st q, core (Some q) C k st -> (n <= q)%nat -> core None C k st.
  Proof.
    intros C k st q [B C1 C2 C3 C4] Hq.
    assert (Hs : forall x, settled (Some q) st x -> settled None st x).
    { intros x [H|[H|H]]; [left; auto|right; left; auto|]. injection H as ->. left; auto. }
    constructor; auto.
    - intros e H. destruct (C1 e H) as [m [D1 D2 D3 D4 D5]]. exists m. constructor; auto.
    - intros e H. destruct (C4 e H) as (F1 & F2 & F3). ands; auto.
  Qed.

  Lemma LK : lookup_ok P.
  Proof. intros p r ls H _ _. apply In_nth_error in H. destruct H as [id H]. eapply NN. apply get_rule_at. exact H. Qed.

  Lemma krest_spec : forall (C : edge -> Prop) (F : Prop) key t st m, let C' := (fun e => C e \/ (e = t /\ F)) in kmid C' key t st m ->
    krules_ok C st -> kdelta_ok C st -> (forall q, (q < n)%nat -> accepting (wa_aut A0) q = Some true -> nth_error (k_popped st) q = Some true) ->
    exists st', k_rest st t (kW st t) = Some st' /\ kinv C' key st' /\ k_rel st' = k_rel st /\
      (forall e, In e (kES st) -> In e (kES st') /\ kW st' e <= kW st e) /\
      ((k_ws st' = k_ws st /\ mu_eq st' st) \/ mu_lt st' st).
  Proof.
    intros C F key t st m C' [CO HP Ht Htr RD Hk HS] IR ID IA. set (cur := Some (e_src t)) in *. set (w := kW st t) in *.
    pose proof (co_base _ _ _ _ CO) as B. assert (HD : deriv t w) by (apply (kb_der _ B); auto).
    destruct (kdelta_spec cur C' key st t w m) as (s3 & D1 & D2 & D3 & D4 & D5); auto.
    assert (L3 := kle_kleC _ _ _ _ _ CO D3).
    (* the state after the loop over the rules *)
    assert (GEN : forall s4, core cur C' key s4 -> kleC cur C' key s3 s4 -> kpopped_ok s4 -> dnew t s3 s4 ->
      (forall p id r ls, In (id, (r, ls)) (visited (rules_at P p) (e_src t)) -> krule_done s4 t w p id r ls /\ kpairs C' s4 t w p r ls) ->
      krules_ok C' s4 /\ kdelta_ok C' s4).
    { intros s4 C4 L4 P4 N4 R4. assert (L := kleC_trans _ _ _ _ _ _ L3 L4). destruct L as [L LC]. split.
      - intros e p id r ls HC Hv. destruct HC as [HC|[-> HF]].
        + rewrite LC by (left; auto). eapply krule_done_mono; [exact L|]. apply IR; auto.
        + rewrite LC by (right; auto). apply R4; auto.
      - intros s p id r ls e2 H1 H2 H3 H4 H5 H6. set (e1 := mk_edge (r_to r) (Some (r_opl r)) s) in *.
        rewrite (LC e1), (LC e2) by auto.
        destruct (kb_delta _ (co_base _ _ _ _ C4) _ _ _ H1) as (r' & ls' & G1 & G2 & G3). rewrite H2 in G1. injection G1 as <- <-.
        assert (T1 : e1 = t -> cov s4 (mk_edge p (e_lab e2) (e_dst e2)) (r_w r + kW st e1 + kW st e2)).
        { intros E1. assert (Ev : In (id, (r, ls)) (visited (rules_at P p) (e_src t))).
          { apply visited_complete; auto using LK; [apply get_rule_at; auto|]. rewrite <- E1. auto. }
          destruct (R4 _ _ _ _ Ev) as [_ KP]. specialize (KP G2). rewrite <- E1 in KP at 1. specialize (KP eq_refl e2 H4). rewrite <- E1 in KP at 1.
          specialize (KP H5 H6). rewrite (LC e2) in KP by auto. rewrite E1. fold w. replace (r_w r + w + kW st e2) with (kW st e2 + w + r_w r) by lia. exact KP. }
        destruct (edge_eq_dec e1 t) as [E1|NE]; [apply T1; auto|].
        assert (HC1 : C e1) by (destruct H3 as [|[? _]]; [auto|contradiction]).
        destruct (N4 _ _ _ H1) as [H1'|[Hd Hr]].
        2:{ destruct (Hr _ _ H2) as [Q1 Q2]. exfalso. apply NE. unfold e1. rewrite Hd, Q1, Q2. destruct t; auto. }
        rewrite D4 in H1'. destruct H4 as [H4|[-> HF]].
        + eapply kle_cov; [exact L|]. eapply ID; eauto.
        + subst s. eapply kle_cov; [apply L4|]. apply (D5 p id r ls); auto. apply (co_C _ _ _ _ CO). left; auto. }
    unfold k_rest. rewrite D1. cbn [obind].
    destruct (Nat.leb_spec (pd_n P) (e_src t)) as [Lq|Lq]; fold n in Lq.
    - exists s3. split; auto. destruct (GEN s3) as [G1 G2]; auto using kleC_refl.
      + eapply kpopped_mono; eauto.
      + intros d p id H. auto.
      + intros p id r ls Hv. destruct (visited_facts P WP _ _ _ _ _ Hv) as [_ [V2 _]]. fold n in V2. lia.
      + split; [|split; [apply (kl_rel _ _ _ _ D3)|split; [apply (kl_ES _ _ _ _ D3)|apply (kl_mu _ _ _ _ D3)]]].
        constructor; auto; [eapply core_out; eauto|eapply kpopped_mono; eauto|]. rewrite (kl_popped _ _ _ _ D3). auto.
    - destruct (nth_error_ex _ _ _ Lq) as [sq Eq]. rewrite Eq. cbn [obind].
      destruct (rules_loop2 P WP (pk_st X) (fun pre st x => k_rule P X t w pre st x) (e_src t) sq
        (fun s => core cur C' key s /\ kleC cur C' key s3 s /\ kpopped_ok s /\ dnew t s3 s) (kleC cur C' key)
        (fun p x s => krule_done s t w p (fst x) (fst (snd x)) (snd (snd x)) /\ kpairs C' s t w p (fst (snd x)) (snd (snd x))))
        with (s := s3) as (s4 & E1 & (E2 & E3 & E4 & E5) & E6 & E7); auto.
      + apply kleC_refl.
      + apply kleC_trans.
      + intros p x a b [H1 H2] Lab. split; [eapply krule_done_mono; [apply Lab|auto]|eapply kpairs_mono; eauto].
      + intros p [id [r ls]] s Hp Hv (S1 & S2 & S3 & S4). cbn [fst snd] in *. assert (L := kleC_trans _ _ _ _ _ _ L3 S2). destruct L as [L LC].
        destruct (krule_spec C' key t w m p id r ls s) as (s' & K1 & K2 & K3 & K4 & K5 & K6); auto.
        * apply (kl_ES _ _ _ _ L); auto.
        * rewrite (kl_rel _ _ _ _ L). auto.
        * apply (kl_ready _ _ _ _ L); auto.
        * rewrite (kl_popped _ _ _ _ L). intros Hf. destruct (HS Hf) as (ms & M1 & M2). exists ms. split; auto. apply (kl_ready _ _ _ _ L); auto.
        * exists s'. ands; auto; [eapply kleC_trans; eauto|eapply kpopped_mono; [apply K3|auto]|].
          intros d p' id' H. destruct (K6 _ _ _ H) as [H'|H']; auto.
      + ands; auto using kleC_refl; [eapply kpopped_mono; eauto|]. intros d p id H; auto.
      + change (fun (st : pk_st X) (pre : nat) => s' <- nth_error (pd_states P) pre ;; ofold (k_rule P X t w pre) (visited (ps_rules s') (e_src t)) st)
          with (fun (st : pk_st X) (pre : nat) => s' <- nth_error (pd_states P) pre ;; ofold (fun st x => k_rule P X t w pre st x) (visited (ps_rules s') (e_src t)) st).
        rewrite E1. cbn [obind]. eexists. split; [reflexivity|].
        assert (R4 : forall p id r ls, In (id, (r, ls)) (visited (rules_at P p) (e_src t)) -> krule_done s4 t w p id r ls /\ kpairs C' s4 t w p r ls).
        { intros p id r ls Hv. apply (E7 p (id, (r, ls)) Hv). }
        destruct (GEN s4) as [G1 G2]; auto. assert (L := kleC_trans _ _ _ _ _ _ L3 E3). destruct L as [L LC].
        split; [|split; [apply (kl_rel _ _ _ _ L)|split; [apply (kl_ES _ _ _ _ L)|apply (kl_mu _ _ _ _ L)]]].
        constructor; auto.
        * apply core_pop; auto.
        * intros q p id r ls l H1 H2 H3 H4. cbn [k_set_popped k_popped] in H1. destruct (Nat.eq_dec (e_src t) q) as [<-|Nq].
          -- destruct (R4 _ _ _ _ H2) as [KR _]. unfold krule_done in KR. rewrite H3 in KR. apply KR; auto.
          -- rewrite nth_error_upd_neq in H1 by auto. eapply E4; eauto.
        * intros q Hq1 Hq2. cbn [k_set_popped k_popped]. destruct (Nat.eq_dec (e_src t) q) as [<-|Nq].
          -- apply nth_error_upd_eq. rewrite (kb_pop _ (co_base _ _ _ _ E2)). auto.
          -- rewrite nth_error_upd_neq by auto. rewrite (kl_popped _ _ _ _ L). auto.
  Qed.

  (** _found, the callback's state, _rel and the number of pops change only in the step itself. *)
  Definition fx (a b : pk_st X) : Prop := k_found a = k_found b /\ k_x a = k_x b /\ k_pops a = k_pops b /\ k_rel a = k_rel b.
  Lemma fx_refl : forall a, fx a a.
  Proof. unfold fx; auto. Qed.
  Lemma fx_trans : forall a b c, fx a b -> fx b c -> fx a c.
  Proof. unfold fx; intros a b c (H1 & H2 & H3 & H4) (H5 & H6 & H7 & H8); ands; congruence. Qed.
  Lemma ofold_fx : forall (A : Type) (f : pk_st X -> A -> option (pk_st X)) l, (forall s a s', In a l -> f s a = Some s' -> fx s' s) ->
    forall s s', ofold f l s = Some s' -> fx s' s.
  Proof.
    intros A f l. induction l as [|a l IH]; intros Hf s s' H; cbn in H; [injection H as <-; apply fx_refl|].
    destruct (f s a) as [s1|] eqn:E; [|discriminate]. apply fx_trans with s1; [|eapply Hf; eauto; left; auto].
    apply IH; auto. intros; eapply Hf; eauto. right; auto.
  Qed.
  Lemma kinsert_fx : forall st e t w st', k_insert X st e t w = Some st' -> fx st' st.
  Proof.
    intros st e t w st' H. unfold k_insert in H. destruct (nth_error (k_min st) (e_dst e)) as [[m|]|]; cbn in H; try discriminate.
    destruct (emplace_edge (wa_aut (k_aut st)) e t) as [[A b]|]; cbn in H; [|discriminate]. destruct b.
    - destruct (nth_error (k_min st) (e_src e)) as [fo|]; cbn in H; [|discriminate]. injection H as <-. unfold fx. destruct (match fo with None => true | Some f => w + m <? f end); cbn; auto.
    - destruct (w <? w_of (k_aut st) e); injection H as <-; unfold fx; cbn; auto.
  Qed.
  Lemma kbulk_fx : forall st p ls q t w st', k_bulk P X st p ls q t w = Some st' -> fx st' st.
  Proof. intros st p ls q t w st' H. unfold k_bulk in H. eapply ofold_fx in H; auto. intros; eapply kinsert_fx; eauto. Qed.
  Lemma kdelta_fx : forall st t w st', k_delta_loop P X st t w = Some st' -> fx st' st.
  Proof.
    intros st t w st' H. unfold k_delta_loop in H. destruct (k_delta_of X st (e_src t)); [|discriminate]. cbn [obind] in H. eapply ofold_fx in H; auto.
    intros s a s' _ H'. cbv beta in H'. destruct (get_rule P (fst a) (snd a)) as [rl|]; cbn [obind] in H'; [|discriminate]. destruct (contains_lab (snd rl) (e_lab t)); [|injection H' as <-; apply fx_refl].
    destruct (k_stored X s _); cbn [obind] in H'; [|discriminate]. eapply kinsert_fx; eauto.
  Qed.
  Lemma krule_fx : forall t w pre st x st', k_rule P X t w pre st x = Some st' -> fx st' st.
  Proof.
    intros t w pre st [id [r ls]] st' H. unfold k_rule in H. cbn [fst snd] in H. destruct (r_op r).
    - destruct (lab_eqb (Some (r_opl r)) (e_lab t)); [|injection H as <-; apply fx_refl].
      destruct (k_rel_of X _ (e_dst t)); cbn [obind] in H; [|discriminate]. apply ofold_fx in H; [apply fx_trans with (k_add_delta X st (e_dst t, (pre, id))); auto; unfold fx; cbn; auto|].
      intros s a s' _ H'. cbv beta in H'. destruct (contains_lab ls (e_lab a)); [|injection H' as <-; apply fx_refl].
      destruct (k_stored X s a); cbn [obind] in H'; [|discriminate]. eapply kinsert_fx; eauto.
    - destruct (nth_error (k_popped st) (e_src t)) as [[|]|]; cbn in H; try discriminate; [injection H as <-; apply fx_refl|]. eapply kbulk_fx; eauto.
    - destruct (lab_eqb (Some (r_opl r)) (e_lab t)); [|injection H as <-; apply fx_refl]. eapply kbulk_fx; eauto.
    - destruct (contains_lab ls (e_lab t)); [|injection H as <-; apply fx_refl]. eapply kinsert_fx; eauto.
  Qed.
  Lemma krest_fx : forall st t w st', k_rest st t w = Some st' -> fx st' st.
  Proof.
    intros st t w st' H. unfold k_rest in H. destruct (k_delta_loop P X st t w) as [s3|] eqn:E; cbn [obind] in H; [|discriminate]. apply kdelta_fx in E.
    destruct (Nat.leb (pd_n P) (e_src t)); [injection H as <-; auto|]. destruct (nth_error (pd_states P) (e_src t)) as [sq|]; cbn [obind] in H; [|discriminate].
    match type of H with (obind ?u _ = _) => destruct u as [s4|] eqn:E4 end; cbn [obind] in H; [|discriminate]. injection H as <-.
    apply fx_trans with s3; auto. apply ofold_fx in E4; [unfold fx in *; cbn; auto|].
    intros s a s' _ H'. cbv beta in H'. destruct (nth_error (pd_states P) a); cbn [obind] in H'; [|discriminate]. eapply ofold_fx in H'; auto. intros; eapply krule_fx; eauto.
  Qed.

  (** The step, up to the callback. *)
  Section Step.
    Variable et : waut -> X -> edge -> trace -> Z -> option Z -> option (bool * X).
    Variable ptop : nat -> list (Z * (edge * trace)) -> nat.
    Variable oob : nat -> option bool.
    Hypothesis HT : forall k l, l <> [] -> exists x, nth_error l (ptop k l) = Some x /\ forall y, In y l -> fst x <= fst y.
    Hypothesis HB : (forall q, oob q <> None) \/ (forall e, In e E0 -> (e_src e < n)%nat).

    Lemma kstep_cases : forall C k st, kinv C k st -> k_ws st <> [] ->
      exists i key t tr, nth_error (k_ws st) i = Some (key, (t, tr)) /\ 0 <= key /\ k <= key /\ In t (kES st) /\
      ((k_step P X (Some et) ptop oob st = Some (k_pop i st) /\ kinv C key (k_pop i st)) \/
       (exists st1 m, kmid (fun e => C e \/ (e = t /\ key = kW st t + m)) key t (k_add_rel X st1 t) m /\
          k_aut st1 = k_aut st /\ k_rel st1 = k_rel st /\ k_delta st1 = k_delta st /\ k_popped st1 = k_popped st /\ k_ws st1 = remove_at i (k_ws st) /\
          k_found st1 = k_found st /\ k_x st1 = k_x st /\
          k_step P X (Some et) ptop oob st =
            (st2 <- k_call X (Some et) st1 t tr (kW st t) key ;; st3 <- k_rest (k_add_rel X st2 t) t (kW st t) ;;
             if Nat.leb (pd_n P) (e_src t) then Some st3 else k_flush X (Some et) st3 t tr (kW st t)))).
    Proof.
      intros C k st KI Hne. destruct (HT (k_pops st) _ Hne) as ([key [t tr]] & Ex & Hmin). cbn [fst] in Hmin.
      set (i := ptop (k_pops st) (k_ws st)) in *. exists i, key, t, tr. split; auto.
      pose proof (co_base _ _ _ _ (ki_core _ _ _ KI)) as B.
      assert (Ht : In t (kES st)) by (eapply (kb_ws _ B); eapply nth_error_In; eauto).
      pose proof (kb_range _ B _ Ht) as Hr. destruct Hr as [R1 [R2 _]]. fold N in R1, R2.
      assert (HPQ : exists pq, k_popped_at X oob (k_pop i st) (e_src t) = Some pq /\ ((e_src t < n)%nat -> nth_error (k_popped st) (e_src t) = Some pq)).
      { unfold k_popped_at. cbn [k_pop k_popped]. rewrite (kb_pop _ B). destruct (Nat.ltb_spec (e_src t) n) as [L|L].
        - destruct (nth_error_ex _ (k_popped st) (e_src t)) as [b Eb]; [rewrite (kb_pop _ B); auto|]. exists b; auto.
        - destruct HB as [H|H].
          + destruct (oob (e_src t)) as [b|] eqn:Eo; [|destruct (H _ Eo)]. exists b. split; auto. lia.
          + exfalso. destruct (kb_src _ B _ Ht) as [H1|H1]; [lia|]. apply H in H1. lia. }
      destruct HPQ as (pq & PQ1 & PQ2).
      destruct (kpop_spec C k st i key t tr pq KI Ex Hmin PQ2) as (_ & K1 & K2 & m & K3 & K4 & K5). ands; auto.
      set (st1 := if pq then k_pop i st else k_set_min X (k_pop i st) (e_src t) key) in *.
      assert (E1 : k_aut st1 = k_aut st /\ k_rel st1 = k_rel st /\ k_delta st1 = k_delta st /\ k_popped st1 = k_popped st /\ k_ws st1 = remove_at i (k_ws st) /\
          k_found st1 = k_found st /\ k_x st1 = k_x st /\ length (k_min st1) = N).
      { unfold st1. destruct pq; cbn; ands; auto; rewrite ?upd_length; apply B. }
      assert (Em : nth_error (k_min st1) (e_dst t) = Some (Some m)).
      { unfold mn in K3. destruct (nth_error (k_min st1) (e_dst t)) as [o|]; congruence. }
      assert (ES : k_step P X (Some et) ptop oob st = if Z.ltb (kW st t + m) key then Some st1 else
        (st2 <- k_call X (Some et) st1 t tr (kW st t) key ;; st3 <- k_rest (k_add_rel X st2 t) t (kW st t) ;;
             if Nat.leb (pd_n P) (e_src t) then Some st3 else k_flush X (Some et) st3 t tr (kW st t))).
      { unfold k_step. fold i. rewrite Ex. cbn [obind fst snd]. fold (k_pop i st). unfold k_weight. rewrite (k_stored_in (k_pop i st) t Ht). cbn [obind].
        change (kW (k_pop i st) t) with (kW st t). rewrite PQ1. cbn [obind]. cbn [k_pop k_min]. rewrite (kb_min _ B). apply Nat.ltb_lt in R1. rewrite R1.
        fold (k_pop i st). fold st1. rewrite Em. cbn [obind]. destruct (Z.ltb (kW st t + m) key); auto.
        destruct (k_call X (Some et) st1 t tr (kW st t) key) as [st2|]; cbn [obind]; auto. unfold k_rest.
        destruct (k_delta_loop P X (k_add_rel X st2 t) t (kW st t)) as [st3|]; cbn [obind]; auto. destruct (Nat.leb (pd_n P) (e_src t)) eqn:El; cbn [obind]; auto.
        destruct (nth_error (pd_states P) (e_src t)) as [sq|]; cbn [obind]; auto.
        match goal with |- (obind ?u _ = _) => destruct u end; cbn [obind]; auto. }
      destruct (Z.ltb_spec (kW st t + m) key) as [L|L].
      - left. destruct (K4 L) as [Epq K6]. split; auto. rewrite ES. unfold st1. rewrite Epq. auto.
      - right. exists st1, m. destruct E1 as (F1 & F2 & F3 & F4 & F5 & F6 & F7 & F8). ands; auto.
    Qed.
  End Step.

  Definition mless (a b : pk_st X) : Prop := mu_lt a b \/ (mu_eq a b /\ (length (k_ws a) < length (k_ws b))%nat).
  Lemma mless_ind : forall (Q : pk_st X -> Prop), (forall st, (forall st', mless st' st -> Q st') -> Q st) -> forall st, Q st.
  Proof.
    intros Q H. assert (K : forall a b c st, mu1 st = a -> mu2 st = b -> length (k_ws st) = c -> Q st); [|eauto].
    induction a as [a IHa] using lt_wf_ind. induction b as [b IHb] using lt_wf_ind. induction c as [c IHc] using lt_wf_ind.
    intros st E1 E2 E3. apply H. intros st' [[L|[L1 L2]]|[[L1 L2] L3]].
    - apply (IHa (mu1 st')) with (b := mu2 st') (c := length (k_ws st')); auto. lia.
    - apply (IHb (mu2 st')) with (c := length (k_ws st')); auto; lia.
    - apply (IHc (length (k_ws st'))); auto; lia.
  Qed.
  Lemma kclosed_rest : forall C st st1, k_aut st1 = k_aut st -> k_delta st1 = k_delta st -> krules_ok C st -> kdelta_ok C st -> krules_ok C st1 /\ kdelta_ok C st1.
  Proof.
    intros C st st1 E1 E2 H1 H2. split; [unfold krules_ok, krule_done, cov, kES, kW in *; rewrite E1, E2; auto|].
    unfold kdelta_ok, cov, kES, kW in *. rewrite E1, E2. auto.
  Qed.
  Lemma remove_at_length : forall (A : Type) (l : list A) i x, nth_error l i = Some x -> (length (remove_at i l) < length l)%nat.
  Proof. intros A l i x H. destruct (remove_at_split _ _ _ _ H) as (l1 & l2 & E1 & E2). rewrite E2, E1, !app_length. cbn. lia. Qed.


  (** The run with a callback that only looks at the edge. *)
  Section Hit.
    Variable et : waut -> X -> edge -> trace -> Z -> option Z -> option (bool * X).
    Variable hit : edge -> bool.
    Hypothesis NV : forall A x e t w key, a_acc (wa_aut A) = a_acc (wa_aut A0) -> in_rng e -> et A x e t w key = Some (hit e, x).
    Variable ptop : nat -> list (Z * (edge * trace)) -> nat.
    Variable oob : nat -> option bool.
    Hypothesis HT : forall k l, l <> [] -> exists x, nth_error l (ptop k l) = Some x /\ forall y, In y l -> fst x <= fst y.
    Hypothesis HB : (forall q, oob q <> None) \/ (forall e, In e E0 -> (e_src e < n)%nat).

    Definition hits (st : pk_st X) : Prop := (k_found st = true -> exists e, In e (kES st) /\ hit e = true) /\ (k_found st = false -> forall e, In e (k_rel st) -> hit e = false).

    Lemma kstep_hit : forall C k st, kinv C k st -> k_ws st <> [] -> k_found st = false -> hits st ->
      exists C' k' st', k_step P X (Some et) ptop oob st = Some st' /\ kinv C' k' st' /\ hits st' /\ mless st' st.
    Proof.
      intros C k st KI Hne Hf HH.
      destruct (kstep_cases et ptop oob HT HB C k st KI Hne) as (i & key & t & tr & Ex & H1 & H2 & Ht & [[E K]|(st1 & m & KM & E1 & E2 & E3 & E4 & E5 & E6 & E7 & ES)]).
      - exists C, key, (k_pop i st). ands; auto. right. split; [unfold mu_eq; auto|]. cbn [k_pop k_ws]. eapply remove_at_length; eauto.
      - assert (B := co_base _ _ _ _ (ki_core _ _ _ KI)).
        destruct (kclosed_rest C st (k_add_rel X st1 t)) as [Q1 Q2]; auto using (ki_rules _ _ _ KI), (ki_delta _ _ _ KI).
        unfold k_call in ES. rewrite NV in ES; [|rewrite E1; apply B|apply B; auto]. cbn [obind fst snd] in ES. rewrite E6, Hf, orb_false_r in ES.
        set (st2 := k_add_rel X (k_set_found X st1 (hit t) (k_x st1)) t) in *.
        (* the callback only sets _found *)
        assert (SA : same (k_add_rel X st1 t) st2) by (unfold same, st2; cbn; ands; auto).
        assert (KM' : kmid (fun e => C e \/ (e = t /\ key = kW st t + m)) key t st2 m) by (eapply kmid_same; eauto).
        destruct (kclosed_rest C st st2) as [Q3 Q4]; auto using (ki_rules _ _ _ KI), (ki_delta _ _ _ KI).
        destruct (krest_spec C (key = kW st t + m) key t st2 m KM' Q3 Q4) as (st3 & R1 & R2 & R3 & R4 & R5).
        { unfold st2. cbn [k_add_rel k_set_found k_popped]. rewrite E4. apply (ki_acc _ _ _ KI). }
        assert (EW : kW st2 t = kW st t) by (unfold st2, kW; cbn [k_add_rel k_set_found k_aut]; rewrite E1; auto). rewrite EW in R1.
        assert (FX := krest_fx _ _ _ _ R1). destruct FX as (X1 & _ & _ & X4).
        assert (F3 : k_found st3 = hit t) by (rewrite X1; reflexivity).
        assert (L3 : k_rel st3 = t :: k_rel st) by (rewrite X4; unfold st2; cbn; rewrite E2; reflexivity).
        assert (T3 : In t (kES st3)).
        { apply (kb_rel _ (co_base _ _ _ _ (ki_core _ _ _ R2))). rewrite L3. left; auto. }
        rewrite R1 in ES. cbn [obind] in ES.
        assert (ML : mless st3 st).
        { assert (EM2 : mu1 st2 = mu1 st /\ mu2 st2 = mu2 st) by (unfold st2, mu1, mu2, kW; cbn [k_add_rel k_set_found k_aut]; rewrite E1; auto).
          unfold mless, mu_lt, mu_eq in *. destruct R5 as [[W1 W2]|W]; [right|left; lia]. split; [lia|]. rewrite W1. unfold st2. cbn [k_add_rel k_set_found k_ws]. rewrite E5. eapply remove_at_length; eauto. }
        assert (HH3 : forall b s, b = hit t -> k_found s = b -> k_rel s = k_rel st3 -> k_aut s = k_aut st3 -> hits s).
        { intros b s Eb Eb2 Er Ea. split.
          - intros F. exists t. split; [unfold kES in *; rewrite Ea; auto|congruence].
          - intros F e He. rewrite Er, L3 in He. destruct He as [<-|He]; [congruence|]. apply (proj2 HH); auto. }
        assert (B3 := co_base _ _ _ _ (ki_core _ _ _ R2)).
        destruct (Nat.leb (pd_n P) (e_src t)).
        + eexists _, _, st3. ands; eauto.
        + unfold k_flush in ES. destruct (k_ws st3) eqn:Ew.
          * rewrite NV in ES; [|apply B3|apply B3; auto]. cbn [obind fst snd] in ES. eexists _, _, _. ands; [exact ES|eapply kinv_same; [|exact R2]; unfold same; cbn; ands; auto| |exact ML].
            eapply HH3; reflexivity.
          * eexists _, _, st3. ands; eauto.
    Qed.

    Lemma krun_hit : forall st C k, kinv C k st -> hits st ->
      exists fuel0 C' k' st', kinv C' k' st' /\ hits st' /\ (k_found st' = false -> k_ws st' = []) /\
        forall fuel, (fuel0 <= fuel)%nat -> k_run P X (Some et) ptop oob fuel st = Some (Some (st', k_found st')).
    Proof.
      induction st as [st IH] using mless_ind. intros C k KI HH. destruct (k_ws st) as [|x l] eqn:Ew.
      - exists 0%nat, C, k, st. ands; auto. intros fuel _. destruct fuel; cbn [k_run]; rewrite Ew; auto.
      - destruct (k_found st) eqn:Hf.
        { exists 0%nat, C, k, st. ands; auto; [congruence|]. intros fuel _. destruct fuel; cbn [k_run]; rewrite Ew, Hf; auto. }
        destruct (kstep_hit C k st KI) as (C' & k' & st' & E & KI' & Hf' & ML); [congruence|auto|auto|].
        destruct (IH st' ML C' k' KI' Hf') as (f0 & C2 & k2 & st2 & G1 & G2 & G3 & G4). exists (S f0), C2, k2, st2. ands; auto.
        intros fuel L. destruct fuel as [|fuel]; [lia|]. cbn [k_run]. rewrite Ew, Hf, E. apply G4. lia.
    Qed.
    (** Less fuel never gives another answer. *)
    Lemma krun_mono : forall fuel st r, k_run P X (Some et) ptop oob fuel st = Some (Some r) -> forall fuel', (fuel <= fuel')%nat -> k_run P X (Some et) ptop oob fuel' st = Some (Some r).
    Proof.
      induction fuel as [|fuel IH]; intros st r H fuel' L; destruct fuel'; cbn [k_run] in *; try lia; destruct (k_ws st) eqn:Ew; auto; destruct (k_found st) eqn:Hf; auto; try discriminate.
      destruct (k_step P X (Some et) ptop oob st); [|discriminate]. apply IH; auto. lia.
    Qed.
    Lemma krun_hit_any : forall fuel st C k, kinv C k st -> hits st -> exists o, k_run P X (Some et) ptop oob fuel st = Some o.
    Proof.
      induction fuel as [|fuel IH]; intros st C k KI HH; cbn [k_run]; destruct (k_ws st) eqn:Ew; eauto; destruct (k_found st) eqn:Hf; eauto.
      destruct (kstep_hit C k st KI) as (C' & k' & st' & E & KI' & Hf' & ML); [congruence|auto|auto|]. rewrite E. eauto.
    Qed.
    (** Both together. *)
    Lemma krun_hit_all : forall st C k, kinv C k st -> hits st -> exists fuel0 C' k' st', kinv C' k' st' /\ hits st' /\ (k_found st' = false -> k_ws st' = []) /\
      (forall fuel, (fuel0 <= fuel)%nat -> k_run P X (Some et) ptop oob fuel st = Some (Some (st', k_found st'))) /\
      forall fuel, k_run P X (Some et) ptop oob fuel st = Some None \/ k_run P X (Some et) ptop oob fuel st = Some (Some (st', k_found st')).
    Proof.
      intros st C k KI HH. destruct (krun_hit st C k KI HH) as (fuel0 & C' & k' & st' & K1 & K2 & K3 & K4). exists fuel0, C', k', st'. ands; auto. intros fuel.
      destruct (krun_hit_any fuel st C k KI HH) as [[r|] E]; auto. right. assert (M := krun_mono _ _ _ E (fuel + fuel0)%nat ltac:(lia)). rewrite K4 in M by lia. congruence.
    Qed.
  End Hit.

  (** *** initialize *)
  Record iinv (cur : option nat) (st : pk_st X) : Prop := {
    ii_base : kbase st;
    ii_min : forall q m, mn st q = Some m -> 0 <= m /\ ((n <= q)%nat -> m = 0);
    ii_ws : forall key e t, In (key, (e, t)) (k_ws st) -> 0 <= key /\ ((n <= e_src e)%nat -> key = 0);
    ii_edge : forall e, In e (kES st) -> In e E0 \/
      (mn st (e_dst e) = Some 0 /\ (exists t, In (kW st e, (e, t)) (k_ws st)) /\ settled cur st (e_dst e));
    ii_empty : k_rel st = [] /\ k_delta st = [] }.
  Record ile (st st' : pk_st X) : Prop := {
    il_ES : forall e, In e (kES st) -> In e (kES st') /\ kW st' e <= kW st e;
    il_min : forall q, mn st q = Some 0 -> mn st' q = Some 0;
    il_pop : forall q, nth_error (k_popped st) q = Some true -> nth_error (k_popped st') q = Some true;
    il_ws : forall x, In x (k_ws st) -> In x (k_ws st');
    il_fx : fx st' st }.
  Lemma ile_refl : forall st, ile st st.
  Proof. intros; constructor; auto using fx_refl. intros; split; auto; lia. Qed.
  Lemma ile_trans : forall a b c, ile a b -> ile b c -> ile a c.
  Proof.
    intros a b c [A1 A2 A3 A4 A5] [B1 B2 B3 B4 B5]. constructor; auto; [|eapply fx_trans; eauto].
    intros e H. destruct (A1 e H) as [H1 H2]. destruct (B1 e H1). split; auto. lia.
  Qed.
  Lemma ile_cov : forall st st' e w, ile st st' -> cov st e w -> cov st' e w.
  Proof. intros st st' e w L [H1 H2]. destruct (il_ES _ _ L _ H1). split; auto. lia. Qed.

  Lemma iinsert_spec : forall cur st e t w, iinv cur st -> in_rng e -> (e_src e < n)%nat -> mn st (e_dst e) = Some 0 -> settled cur st (e_dst e) ->
    deriv e w ->
    exists st', k_insert X st e t w = Some st' /\ iinv cur st' /\ ile st st' /\ cov st' e w /\ k_popped st' = k_popped st.
  Proof.
    intros cur st e t w II Hr Hs Hm Hst HD. pose proof (ii_base _ _ II) as B.
    assert (FX : forall st', k_insert X st e t w = Some st' -> fx st' st) by (intros; eapply kinsert_fx; eauto).
    unfold k_insert in *.
    assert (E1 : nth_error (k_min st) (e_dst e) = Some (Some 0)).
    { unfold mn in Hm. destruct (nth_error (k_min st) (e_dst e)) as [o|]; congruence. }
    rewrite E1 in *. cbn [obind] in *. destruct Hr as [Hr1 [Hr2 Hr3]].
    unfold emplace_edge in *. rewrite (kbase_size _ B) in *. fold N in Hr1. assert (Hr1' := Hr1). apply Nat.ltb_lt in Hr1'. rewrite Hr1' in *.
    assert (Hw0 : 0 <= w) by (eapply kderiv_nonneg; [exact NN|exact HD]).
    destruct (find_edge e (a_edges (wa_aut (k_aut st)))) eqn:F; cbn [obind fst snd] in *.
    - apply find_edge_Some in F. apply (in_map fst) in F. cbn [fst] in F. change (In e (kES st)) in F.
      change (w_of (k_aut st) e) with (kW st e) in *. rewrite Z.add_0_r in *.
      destruct (Z.ltb_spec w (kW st e)) as [L|L].
      2:{ exists st. ands; auto using ile_refl. split; auto. }
      set (st' := k_push X _ _ e t) in *. exists st'. split; auto.
      assert (HW : forall e', kW st' e' = if edge_eq_dec e e' then w else kW st e').
      { intros e'. unfold kW, st'. cbn [k_push k_set_aut k_aut]. rewrite w_of_cons. destruct (k_aut st); auto. }
      assert (HWe : kW st' e = w) by (rewrite HW; destruct (edge_eq_dec e e); congruence).
      assert (HWn : forall e', e' <> e -> kW st' e' = kW st e') by (intros e' Hn; rewrite HW; destruct (edge_eq_dec e e'); congruence).
      assert (HWle : forall e', kW st' e' <= kW st e') by (intros e'; rewrite HW; destruct (edge_eq_dec e e') as [<-|]; lia).
      assert (NE : ~ In e E0) by (intros H; destruct (kb_E0 _ B _ H); lia).
      assert (EW : k_ws st' = k_ws st ++ [(w, (e, t))]) by reflexivity.
      ands; auto.
      + destruct II as [_ I2 I3 I4 I5]. constructor; auto.
        * destruct B. constructor; auto.
          -- intros e' H. destruct (kb_E1 e' H) as [H1 H2]. split; auto. rewrite HWn; auto. congruence.
          -- intros key e' t' H. rewrite EW in H. apply in_app_iff in H. destruct H as [H|[H|[]]]; [eapply kb_ws0; eauto|]. injection H as _ <- _. auto.
          -- intros e' H. rewrite HW. destruct (edge_eq_dec e e') as [->|]; auto.
        * intros key e' t' H. rewrite EW in H. apply in_app_iff in H. destruct H as [H|[H|[]]]; [eapply I3; eauto|]. injection H as <- <- _. split; auto. lia.
        * intros e' H. destruct (I4 e' H) as [H'|(H1 & (t' & H2) & H3)]; auto. right. ands; auto. rewrite EW.
          destruct (edge_eq_dec e' e) as [->|Hn]; [exists t; rewrite HWe; apply in_app_iff; right; left; auto|].
          exists t'. rewrite HWn by auto. apply in_app_iff; auto.
      + constructor; auto. intros x H. rewrite EW. apply in_app_iff; auto.
      + split; auto. rewrite HWe. lia.
    - apply find_edge_None in F. change (~ In e (kES st)) in F.
      destruct (nth_error_ex _ (k_min st) (e_src e)) as [fo Efo]; [rewrite (kb_min _ B); auto|]. rewrite Efo in *. cbn [obind] in *.
      rewrite Z.add_0_r in *.
      set (st1 := k_set_aut X st _) in *. set (bb := match fo with None => true | Some f => w <? f end) in *.
      set (st2 := if bb then k_set_min X st1 (e_src e) w else st1) in *. set (st' := k_push X st2 _ e t) in *. exists st'. split; auto.
      assert (EA : k_aut st' = mk_waut (mk_aut (a_acc (wa_aut (k_aut st))) ((e, t) :: a_edges (wa_aut (k_aut st))) (a_ord (wa_aut (k_aut st)))) ((e, w) :: wa_w (k_aut st))).
      { unfold st', st2. cbn [k_push k_aut]. destruct bb; reflexivity. }
      assert (ER : k_rel st' = k_rel st /\ k_delta st' = k_delta st /\ k_popped st' = k_popped st /\ k_ws st' = k_ws st ++ [(w, (e, t))] /\ length (k_min st') = length (k_min st)).
      { unfold st', st2. cbn [k_push k_rel k_delta k_popped k_ws k_min]. destruct bb; cbn; ands; auto. apply upd_length. }
      destruct ER as (ER1 & ER2 & ER3 & ER4 & ER5).
      assert (HW : forall e', kW st' e' = if edge_eq_dec e e' then w else kW st e').
      { intros e'. unfold kW. rewrite EA. rewrite w_of_cons. destruct (edge_eq_dec e e'); auto. }
      assert (HWe : kW st' e = w) by (rewrite HW; destruct (edge_eq_dec e e); congruence).
      assert (HWn : forall e', In e' (kES st) -> kW st' e' = kW st e') by (intros e' Hn; rewrite HW; destruct (edge_eq_dec e e'); congruence).
      assert (HES : kES st' = e :: kES st) by (unfold kES; rewrite EA; reflexivity).
      assert (Hmn : forall q, mn st' q = if Nat.eq_dec (e_src e) q then (if bb then Some w else mn st q) else mn st q).
      { intros q. unfold mn, st', st2. cbn [k_push k_min]. destruct (Nat.eq_dec (e_src e) q) as [<-|Nq]; destruct bb; auto; cbn [k_set_min k_min].
        - rewrite nth_error_upd_eq; auto. change (k_min st1) with (k_min st). rewrite (kb_min _ B). auto.
        - rewrite nth_error_upd_neq by auto. reflexivity. }
      assert (Hmn0 : forall q, mn st q = Some 0 -> mn st' q = Some 0).
      { intros q H. rewrite Hmn. destruct (Nat.eq_dec (e_src e) q) as [<-|Nq]; auto. unfold bb. unfold mn in H. rewrite Efo in H. subst fo.
        destruct (Z.ltb_spec w 0); [lia|auto]. unfold mn. rewrite Efo. auto. }
      assert (Hset : forall q, settled cur st q -> settled cur st' q) by (intros q; unfold settled; rewrite ER3; auto).
      ands; auto.
      + destruct II as [_ I2 I3 I4 I5]. constructor; auto.
        * destruct B. constructor; try (rewrite ?EA, ?ER3, ?ER5; cbn [wa_aut a_acc a_ord]; auto; fail).
          -- rewrite HES. constructor; auto.
          -- rewrite HES. intros e' [<-|H]; auto. unfold in_range. ands; auto.
          -- rewrite HES. intros e' [<-|H]; auto.
          -- intros e' H. destruct (kb_E1 e' H) as [H1 H2]. rewrite HES, HWn; auto. split; auto. right; auto.
          -- intros key e' t' H. rewrite HES. rewrite ER4 in H. apply in_app_iff in H. destruct H as [H|[H|[]]]; [right; eapply kb_ws0; eauto|]. injection H as _ <- _. left; auto.
          -- intros e' H. rewrite HES. rewrite ER1 in H. right; auto.
          -- intros s p id H. rewrite ER2 in H. destruct (kb_delta0 _ _ _ H) as (r & ls & H1 & H2 & H3). exists r, ls. ands; auto. rewrite HES. right; auto.
          -- rewrite HES. intros e' [<-|H]; [rewrite HWe; auto|rewrite HWn; auto].
        * intros q m' H. rewrite Hmn in H. destruct (Nat.eq_dec (e_src e) q) as [<-|Nq]; [|eauto]. destruct bb; [|eauto]. injection H as <-. split; auto. lia.
        * intros key e' t' H. rewrite ER4 in H. apply in_app_iff in H. destruct H as [H|[H|[]]]; [eapply I3; eauto|]. injection H as <- <- _. split; auto. lia.
        * rewrite HES. intros e' [<-|H].
          -- right. ands; auto. exists t. rewrite HWe, ER4. apply in_app_iff. right; left; auto.
          -- destruct (I4 e' H) as [H'|(H1 & (t' & H2) & H3)]; auto. right. ands; auto. exists t'. rewrite HWn, ER4 by auto. apply in_app_iff; auto.
        * rewrite ER1, ER2. auto.
      + constructor; auto.
        * intros e' H. rewrite HES, HWn by auto. split; [right; auto|lia].
        * rewrite ER3. auto.
        * intros x H. rewrite ER4. apply in_app_iff; auto.
      + split; [rewrite HES; left; auto|]. rewrite HWe. lia.
  Qed.
  Lemma kpopped_ile : forall st st', ile st st' -> k_popped st' = k_popped st -> kpopped_ok st -> kpopped_ok st'.
  Proof. intros st st' L E H q p id r ls l H1 H2 H3 H4. rewrite E in H1. eapply ile_cov; eauto. Qed.

  Lemma iadd_pop_spec : forall st q, iinv None st -> kpopped_ok st -> (mn st q = Some 0 \/ forall p id r ls, In (id, (r, ls)) (visited (rules_at P p) q) -> r_op r <> POP) ->
    exists st', k_add_pop P X st q = Some st' /\ iinv None st' /\ kpopped_ok st' /\ ile st st' /\ ((q < n)%nat -> nth_error (k_popped st') q = Some true).
  Proof.
    intros st q II HP Hq. pose proof (ii_base _ _ II) as B. unfold k_add_pop.
    destruct (Nat.leb_spec (pd_n P) q) as [L|L]; fold n in L; [exists st; ands; auto using ile_refl; lia|].
    destruct (nth_error_ex _ (k_popped st) q) as [b Eb]; [rewrite (kb_pop _ B); auto|]. rewrite Eb. cbn [obind].
    destruct b; [exists st; ands; auto using ile_refl|].
    destruct (nth_error_ex _ (pd_states P) q) as [sq Eq]; [exact L|]. rewrite Eq. cbn [obind].
    assert (II' : iinv (Some q) st).
    { destruct II as [I1 I2 I3 I4 I5]. constructor; auto. intros e H. destruct (I4 e H) as [H'|(H1 & H2 & [H3|[H3|H3]])]; auto; [right; ands; auto; left; auto|right; ands; auto; right; auto|discriminate]. }
    destruct (rules_loop2 P WP (pk_st X) (fun pre st (x : nat * (rule * labels)) =>
                   match r_op (fst (snd x)) with
                   | POP => k_bulk P X st pre (snd (snd x)) q (TPre (fst x) None) (r_w (fst (snd x)))
                   | _ => Some st
                   end) q sq (fun s => iinv (Some q) s /\ ile st s /\ k_popped s = k_popped st) ile
        (fun p x s => r_op (fst (snd x)) = POP -> forall l, matches (pd_nlab P) (snd (snd x)) l -> cov s (mk_edge p (Some l) q) (r_w (fst (snd x)))))
        with (s := st) as (s4 & E1 & (E2 & E3 & E4) & E6 & E7); auto using ile_refl.
    - apply ile_trans.
    - intros p x a b H Lab Ho l Hl. eapply ile_cov; eauto.
    - intros p [id [r ls]] s Hp Hv (S1 & S2 & S3). cbn [fst snd].
      destruct (visited_facts P WP _ _ _ _ _ Hv) as [V1 [V2 [V3 [V4 V5]]]]. fold n in V1, V2.
      destruct (r_op r) eqn:Er; try (exists s; ands; auto using ile_refl; discriminate).
      destruct Hq as [Hq|Hq]; [|exfalso; eapply Hq; eauto]. unfold k_bulk.
      destruct (ofold_rule _ _ (fun st l => k_insert X st (mk_edge p (Some l) q) (TPre id None) (r_w r))
        (fun s0 => iinv (Some q) s0 /\ ile s s0 /\ k_popped s0 = k_popped st) ile (fun l s => cov s (mk_edge p (Some l) q) (r_w r)) (bulk_labels P ls)) with (s := s)
        as [st' [G1 [[G2 [G3 G3']] [G4 G5]]]]; auto using ile_refl.
      + apply ile_trans.
      + intros; eapply ile_cov; eauto.
      + intros l s0 Hl (T1 & T2 & T3). apply (bulk_labels_In P (wa_aut A0) HnN) in Hl.
        destruct (iinsert_spec (Some q) s0 (mk_edge p (Some l) q) (TPre id None) (r_w r)) as [s' [F1 [F2 [F3 [F4 F5]]]]]; auto.
        * unfold in_range; ands; cbn; auto; [fold N; lia|fold N; lia|]. exists l; split; auto. eapply matches_lt; eauto.
        * cbn [e_dst]. apply (il_min _ _ T2). apply (il_min _ _ S2). auto.
        * right; right; auto.
        * rewrite <- V3. eapply kd_pop; eauto.
        * exists s'. ands; auto; [eapply ile_trans; eauto|congruence].
      + exists st'. ands; auto; [eapply ile_trans; eauto|]. intros _ l Hl. apply G5. apply (bulk_labels_In P (wa_aut A0) HnN); auto.
    - rewrite E1. cbn [obind]. eexists. split; [reflexivity|].
      assert (Epop : forall x, nth_error (k_popped s4) x = Some true -> nth_error (upd (k_popped s4) q true) x = Some true).
      { intros x Hx. destruct (Nat.eq_dec q x) as [<-|Nx]; [|rewrite nth_error_upd_neq; auto]. apply nth_error_upd_eq. apply nth_error_Some. congruence. }
      assert (Eq' : nth_error (upd (k_popped s4) q true) q = Some true).
      { apply nth_error_upd_eq. rewrite (kb_pop _ (ii_base _ _ E2)). auto. }
      ands; auto.
      + destruct E2 as [I1 I2 I3 I4 I5]. constructor; auto.
        * destruct I1. constructor; auto. cbn [k_set_popped k_popped]. rewrite upd_length. auto.
        * intros e H. destruct (I4 e H) as [H'|(H1 & H2 & [H3|[H3|H3]])]; auto; right; ands; auto; [left; auto|right; left..].
          -- cbn [k_set_popped k_popped]. auto.
          -- injection H3 as <-. auto.
      + intros x p id r ls l H1 H2 H3 H4. cbn [k_set_popped k_popped] in H1. destruct (Nat.eq_dec q x) as [<-|Nx].
        * apply (E7 p (id, (r, ls)) H2); auto.
        * rewrite nth_error_upd_neq in H1 by auto. eapply (kpopped_ile st s4); eauto.
      + destruct E3 as [L1 L2 L3 L4 L5]. constructor; auto.
  Qed.

  Hypothesis NI : no_in P (wa_aut A0).
  Hypothesis W0 : forall e, w_of A0 e = 0.
  Hypothesis ND0 : NoDup E0.
  Hypothesis RG0 : forall e, In e E0 -> in_rng e.
  (** insert_edge needs _minpath of an accepting PDA state with POP rules into it. *)
  Hypothesis AE : forall q, (q < n)%nat -> accepting (wa_aut A0) q = Some true ->
    (exists e, In e E0 /\ e_src e = q) \/ (forall p id r ls, get_rule P p id = Some (r, ls) -> r_to r = q -> r_op r <> POP).

  (** An edge of the initial automaton has been pushed. *)
  Definition ivis (st : pk_st X) (e : edge) : Prop := mn st (e_src e) = Some 0 /\ mn st (e_dst e) = Some 0 /\ exists t, In (0, (e, t)) (k_ws st).
  Lemma ivis_mono : forall st st' e, ile st st' -> ivis st e -> ivis st' e.
  Proof. intros st st' e [L1 L2 L3 L4 L5] (H1 & H2 & t & H3). unfold ivis; ands; eauto. Qed.
  Lemma iedge_spec : forall st e, iinv None st -> kpopped_ok st -> In e (kES st) ->
    exists st', k_init_edge X st e = Some st' /\ iinv None st' /\ kpopped_ok st' /\ ile st st' /\ k_aut st' = k_aut st /\ ivis st' e.
  Proof.
    intros st e II HP He. pose proof (ii_base _ _ II) as B. unfold k_init_edge. rewrite (kb_min _ B).
    pose proof (kb_range _ B _ He) as Hr. destruct Hr as [R1 [R2 _]]. fold N in R1, R2.
    assert (R1' := R1). assert (R2' := R2). apply Nat.ltb_lt in R1', R2'. rewrite R1', R2'. cbn [andb].
    set (st' := k_push X _ 0 e TNull).
    assert (Hmn : forall q, mn st' q = if Nat.eq_dec (e_dst e) q then Some 0 else if Nat.eq_dec (e_src e) q then Some 0 else mn st q).
    { intros q. unfold mn, st'. cbn [k_push k_set_min k_min]. destruct (Nat.eq_dec (e_dst e) q) as [<-|N1].
      - rewrite nth_error_upd_eq; auto. rewrite upd_length, (kb_min _ B). auto.
      - rewrite nth_error_upd_neq by auto. destruct (Nat.eq_dec (e_src e) q) as [<-|N2].
        + rewrite nth_error_upd_eq; auto. rewrite (kb_min _ B). auto.
        + rewrite nth_error_upd_neq by auto. auto. }
    assert (Hmn0 : forall q, mn st q = Some 0 -> mn st' q = Some 0).
    { intros q H. rewrite Hmn. destruct (Nat.eq_dec (e_dst e) q); auto. destruct (Nat.eq_dec (e_src e) q); auto. }
    assert (EW : k_ws st' = k_ws st ++ [(0, (e, TNull))]) by reflexivity.
    assert (L : ile st st').
    { constructor; auto.
      - intros e' H. split; auto. change (kW st e' <= kW st e'). lia.
      - intros x H. rewrite EW. apply in_app_iff; auto.
      - unfold fx; auto. }
    exists st'. ands; auto.
    - destruct II as [_ I2 I3 I4 I5]. constructor; auto.
      + destruct B. constructor; auto.
        * intros key e' t' H. rewrite EW in H. apply in_app_iff in H. destruct H as [H|[H|[]]]; [eapply kb_ws0; eauto|]. injection H as _ <- _. auto.
        * unfold st'. cbn [k_push k_set_min k_min]. rewrite !upd_length. auto.
      + intros q m H. rewrite Hmn in H. destruct (Nat.eq_dec (e_dst e) q); [injection H as <-; split; [lia|auto]|].
        destruct (Nat.eq_dec (e_src e) q); [injection H as <-; split; [lia|auto]|eauto].
      + intros key e' t' H. rewrite EW in H. apply in_app_iff in H. destruct H as [H|[H|[]]]; [eapply I3; eauto|]. injection H as <- <- _. split; auto. lia.
      + intros e' H. destruct (I4 e' H) as [H'|(H1 & (t' & H2) & H3)]; auto. right. ands; auto. exists t'. rewrite EW. apply in_app_iff; auto.
    - unfold ivis. rewrite !Hmn. ands.
      + destruct (Nat.eq_dec (e_dst e) (e_src e)); auto. destruct (Nat.eq_dec (e_src e) (e_src e)); [auto|congruence].
      + destruct (Nat.eq_dec (e_dst e) (e_dst e)); [auto|congruence].
      + exists TNull. rewrite EW. apply in_app_iff. right; left; auto.
  Qed.

  Lemma istate_spec : forall st q, (q < N)%nat -> iinv None st -> kpopped_ok st ->
    exists st', k_init_state P X st q = Some st' /\ iinv None st' /\ kpopped_ok st' /\ ile st st' /\
      (forall e, In e E0 -> e_src e = q -> ivis st' e) /\ ((q < n)%nat -> accepting (wa_aut A0) q = Some true -> nth_error (k_popped st') q = Some true).
  Proof.
    intros st q Hq II HP. pose proof (ii_base _ _ II) as B. unfold k_init_state.
    assert (WO : wf_ord (wa_aut (k_aut st))) by (unfold wf_ord; rewrite (kb_ord _ B); auto).
    destruct (ofold_rule _ _ (fun st t => ofold (fun st l => k_init_edge X st (mk_edge q l t)) (labels_between (wa_aut (k_aut st)) q t) st)
      (fun s => iinv None s /\ kpopped_ok s /\ k_aut s = k_aut st) ile (fun t s => forall l, In (mk_edge q l t) (kES st) -> ivis s (mk_edge q l t)) (tos (wa_aut (k_aut st)) q))
      with (s := st) as (s1 & E1 & (E2 & E3 & E4) & E5 & E6); auto using ile_refl.
    - apply ile_trans.
    - intros t s s' H L l Hl. eapply ivis_mono; eauto.
    - intros t s Ht (S1 & S2 & S3). rewrite S3.
      destruct (ofold_rule _ _ (fun st l => k_init_edge X st (mk_edge q l t)) (fun s => iinv None s /\ kpopped_ok s /\ k_aut s = k_aut st) ile
        (fun l s => ivis s (mk_edge q l t)) (labels_between (wa_aut (k_aut st)) q t)) with (s := s) as (s2 & F1 & (F2 & F3 & F4) & F5 & F6); auto using ile_refl.
      + apply ile_trans.
      + intros; eapply ivis_mono; eauto.
      + intros l s0 Hl (T1 & T2 & T3). apply labels_between_In in Hl.
        destruct (iedge_spec s0 (mk_edge q l t) T1 T2) as (s3 & G1 & G2 & G3 & G4 & G5 & G6); [unfold kES; rewrite T3; exact Hl|].
        exists s3. ands; auto. congruence.
      + exists s2. ands; auto. intros l Hl. apply F6. apply labels_between_In. exact Hl.
    - rewrite E1. cbn [obind]. rewrite E4. unfold accepting. rewrite (kb_acc _ B).
      destruct (nth_error_ex _ (a_acc (wa_aut A0)) q) as [b Eb]; [exact Hq|]. rewrite Eb. cbn [obind].
      assert (HV : forall e, In e E0 -> e_src e = q -> ivis s1 e).
      { intros e He <-. assert (He' := proj1 (kb_E0 _ B _ He)). assert (K := E6 (e_dst e)). destruct e as [a l c]. cbn [e_src e_dst] in *. apply K; auto.
        apply tos_In; auto. exists l. exact He'. }
      destruct b.
      + destruct (iadd_pop_spec s1 q E2 E3) as (s2 & G1 & G2 & G3 & G4 & G5).
        { destruct (le_lt_dec n q) as [L|L].
          - right. intros p id r ls Hv. destruct (visited_facts P WP _ _ _ _ _ Hv) as [_ [V2 _]]. fold n in V2. lia.
          - destruct (AE q L Eb) as [(e & He1 & He2)|H].
            + left. destruct (HV e He1 He2) as [H _]. congruence.
            + right. intros p id r ls Hv. destruct (visited_facts P WP _ _ _ _ _ Hv) as [_ [_ [V3 [V4 _]]]]. eauto. }
        exists s2. ands; auto; [eapply ile_trans; eauto|]. intros e He1 He2. eapply ivis_mono; eauto.
      + exists s1. ands; auto. intros _ H. unfold accepting in H. congruence.
  Qed.

  Lemma kinit_spec : forall x, exists st, k_init P X A0 x = Some st /\ kinv (fun _ => False) 0 st /\ k_found st = false /\ k_x st = x /\ k_rel st = [].
  Proof.
    intros x. unfold k_init. fold N. set (s0 := mk_pk A0 [] [] [] (repeat false (pd_n P)) (repeat None N) false 0 x).
    assert (Hm0 : forall q, mn s0 q = None).
    { intros q. unfold mn, s0. cbn [k_min]. destruct (nth_error (repeat None N) q) as [o|] eqn:E; auto. apply nth_error_In in E. apply repeat_spec in E. auto. }
    assert (B0 : kbase s0).
    { constructor; cbn; auto; try (intros; contradiction).
      - intros e H. split; auto. apply W0.
      - apply repeat_length.
      - apply repeat_length.
      - intros e H. unfold kW. cbn. rewrite W0. constructor. exact H. }
    destruct (ofold_rule _ _ (k_init_state P X) (fun s => iinv None s /\ kpopped_ok s) ile
      (fun q s => (forall e, In e E0 -> e_src e = q -> ivis s e) /\ ((q < n)%nat -> accepting (wa_aut A0) q = Some true -> nth_error (k_popped s) q = Some true)) (seq 0 N))
      with (s := s0) as (st & E1 & (E2 & E3) & E4 & E5); auto using ile_refl.
    - apply ile_trans.
    - intros q s s' [H1 H2] L. split; [intros; eapply ivis_mono; eauto|]. intros. apply (il_pop _ _ L). auto.
    - intros q s Hq [S1 S2]. apply in_seq in Hq. destruct (istate_spec s q) as (s' & F1 & F2 & F3 & F4 & F5 & F6); auto; [lia|]. exists s'. ands; auto.
    - split.
      + constructor; auto.
        * intros q m H. rewrite Hm0 in H. discriminate.
        * intros key e t [].
      + intros q p id r ls l H. cbn in H. apply nth_error_In in H. apply repeat_spec in H. discriminate.
    - exists st. split; auto. pose proof (ii_base _ _ E2) as B.
      assert (HE : forall e, In e (kES st) -> mn st (e_dst e) = Some 0 /\ (exists t, In (kW st e, (e, t)) (k_ws st)) /\ settled None st (e_dst e)).
      { intros e He. destruct (ii_edge _ _ E2 e He) as [H|H]; auto.
        destruct (E5 (e_src e)) as [H1 _]; [apply in_seq; pose proof (kb_range _ B _ He) as Hr; destruct Hr as [R1 _]; fold N in R1; lia|].
        destruct (H1 e H eq_refl) as (V1 & V2 & V3). ands; auto.
        - rewrite (proj2 (kb_E0 _ B _ H)). auto.
        - left. destruct e as [a l c]. apply (NI a l c). exact H. }
      assert (HR : forall e, In e (kES st) -> ready None 0 st (e_dst e) 0).
      { intros e He. destruct (HE e He) as (H1 & H2 & H3). constructor; auto; try lia. intros e' m' H4 H5 H6.
        apply (ii_min _ _ E2) in H6. assert (K := kW_nonneg _ _ B H4). lia. }
      ands; try (apply (il_fx _ _ E4)).
      constructor; auto.
      + constructor; auto.
        * intros e He. exists 0. auto.
        * apply (ii_ws _ _ E2).
        * intros e He. left. destruct (HE e He) as (H1 & (t & H2) & H3). exists t, 0. split; auto. rewrite Z.add_0_r. auto.
        * intros e [].
      + intros e p id r ls [].
      + intros s p id r ls e2 _ _ [].
      + intros q Hq Ha. destruct (E5 q) as [_ H]; auto. apply in_seq. lia.
  Qed.
End PreShortInv.
