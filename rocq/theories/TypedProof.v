(** The typed pushdown automaton. *)
From Coq Require Import List Arith Lia Bool ZArith.
From Verif Require Import Base BaseFacts Spec PdaModel PdaProof TrieModel RefineModel MappingProof TypedModel.
Import ListNotations.

(** A rule is stored for a label: with a wildcard or with that label. *)
Definition stored (P : pda) (p : nat) (r : rule) (l : nat) : Prop := exists ls, In (r, ls) (rules_at P p) /\ (wild ls = true \/ In l (labs ls)).

Lemma merge_stored : forall ls w o l, (wild (merge ls w o) = true \/ In l (labs (merge ls w o))) <-> (wild ls = true \/ In l (labs ls)) \/ (w = true \/ In l o).
Proof.
  intros ls w o l. unfold merge. destruct (wild ls) eqn:E; [rewrite E; tauto|]. destruct w; cbn; [tauto|]. rewrite set_union_In.
  split; [intros [H|[H|H]]; auto; discriminate|intros [[H|H]|[H|H]]; auto; discriminate].
Qed.
Lemma add_rule_rsorted : forall P from r w pre, (forall p, rsorted (rules_at P p)) -> forall p, rsorted (rules_at (add_rule_impl P from r w pre) p).
Proof. intros P from r w pre H p. rewrite add_rule_rules_at. destruct (Nat.eqb from p); auto. apply vm_emplace_mod_sorted; auto. Qed.
Lemma add_rule_stored : forall P from r w pre, (forall p, rsorted (rules_at P p)) -> forall p r' l,
  stored (add_rule_impl P from r w pre) p r' l <-> stored P p r' l \/ (p = from /\ r' = r /\ (w = true \/ In l pre)).
Proof.
  intros P from r w pre HS p r' l. unfold stored. rewrite add_rule_rules_at. destruct (Nat.eqb_spec from p) as [<-|N].
  - split.
    + intros (ls & Hin & H). apply vm_emplace_mod_In in Hin; auto. destruct Hin as [[_ Hin]|[-> [(old & Hin & ->)|[_ ->]]]].
      * left. eauto.
      * apply merge_stored in H. destruct H as [H|H]; [left; eauto|right; auto].
      * apply merge_stored in H. cbn in H. destruct H as [[H|[]]|H]; [discriminate|right; auto].
    + intros [(ls & Hin & H)|(_ & -> & H)].
      * destruct (rule_eq_dec r' r) as [->|Hne].
        -- exists (merge ls w pre). split; [apply vm_emplace_mod_In; auto; right; split; auto; left; exists ls; auto|apply merge_stored; auto].
        -- exists ls. split; auto. apply vm_emplace_mod_In; auto.
      * destruct (in_dec rule_eq_dec r (map fst (rules_at P from))) as [Hi|Hi].
        -- apply in_map_iff in Hi. destruct Hi as [[r0 ls0] [E0 Hi]]. cbn in E0; subst r0.
           exists (merge ls0 w pre). split; [apply vm_emplace_mod_In; auto; right; split; auto; left; exists ls0; auto|apply merge_stored; auto].
        -- exists (merge no_labels w pre). split; [|apply merge_stored; auto]. apply vm_emplace_mod_In; auto. right. split; auto. right. split; auto.
           intros old Ho. apply Hi. apply in_map_iff. exists (r, old); auto.
  - split; [intros H; left; auto|intros [H|[H _]]; [auto|congruence]].
Qed.
Lemma add_state_rules : forall P s p, rules_at (add_state P s) p = rules_at P p.
Proof. intros. unfold rules_at. rewrite add_state_nth. auto. Qed.

Section Typed.
  Variables (K : Type) (keqb : K -> K -> bool) (kdef : K).
  Variables (ST : Type) (seqb : ST -> ST -> bool).
  Variable no_opl : nat.
  Hypothesis keqb_ok : forall a b, keqb a b = true <-> a = b.
  Hypothesis seqb_ok : forall a b, seqb a b = true <-> a = b.
  Notation tp := (tpda K ST).
  Notation call := (tcall K ST).

  (** Entry of a rule call, in ids. *)
  Definition call_entry (T : tp) (cs : list call) (p : nat) (r : rule) (i : nat) : Prop :=
    exists o opl wc pre lid, In (TRule p (r_to r) o opl wc pre (r_w r)) cs /\ find_labelid keqb no_opl T o opl = Some lid /\
      r = mk_rule (r_to r) o lid (r_w r) /\ (wc = true \/ exists l, In l pre /\ exists_label keqb T l = Some i).

  Record tinv (cs : list call) (T : tp) : Prop := {
    ti_nd : NoDup (t_labels T);
    ti_snd : NoDup (t_states T);
    ti_n : pd_nlab (t_rules T) = length (t_labels T);
    ti_labs : forall l, In l (t_labels T) <-> In (TLabel l) cs;
    ti_states : forall s, In s (t_states T) <-> In (TState s) cs;
    ti_size : length (t_states T) <= pd_n (t_rules T);
    ti_sorted : forall p, rsorted (rules_at (t_rules T) p);
    ti_range : forall p r ls i, In (r, ls) (rules_at (t_rules T) p) -> In i (labs ls) -> i < length (t_labels T);
    ti_rules : forall p r i, stored (t_rules T) p r i <-> call_entry T cs p r i;
    ti_pre : forall p to o opl wc pre w, In (TRule p to o opl wc pre w) cs -> find_labelid keqb no_opl T o opl <> None /\ forall l, In l pre -> exists_label keqb T l <> None }.

  Definition tle (T T' : tp) : Prop := (exists l, t_labels T' = t_labels T ++ l) /\ (exists l, t_states T' = t_states T ++ l) /\
    NoDup (t_labels T') /\ NoDup (t_states T').
  Lemma tle_refl : forall T, NoDup (t_labels T) -> NoDup (t_states T) -> tle T T.
  Proof. intros T. split; [exists []; rewrite app_nil_r; auto|]. split; [exists []; rewrite app_nil_r; auto|]. auto. Qed.
  Lemma tle_trans : forall T1 T2 T3, tle T1 T2 -> tle T2 T3 -> tle T1 T3.
  Proof.
    intros T1 T2 T3 ((l1 & E1) & (s1 & F1) & _) ((l2 & E2) & (s2 & F2) & N). split; [exists (l1 ++ l2); rewrite app_assoc, <- E1; auto|].
    split; [exists (s1 ++ s2); rewrite app_assoc, <- F1; auto|]. auto.
  Qed.
  Lemma tle_label : forall T T' l i, tle T T' -> exists_label keqb T l = Some i -> exists_label keqb T' l = Some i.
  Proof.
    intros T T' l i ((l1 & E1) & _ & N & _) H. unfold exists_label, ts_exists in *. apply tr_index_nth; auto.
    apply (tr_index_Some K keqb keqb_ok) in H. rewrite E1, nth_error_app1; auto. eapply nth_error_lt; eauto.
  Qed.
  Lemma tle_state : forall T T' l i, tle T T' -> exists_state seqb T l = Some i -> exists_state seqb T' l = Some i.
  Proof.
    intros T T' l i (_ & (l1 & E1) & _ & N) H. unfold exists_state, ts_exists in *. apply tr_index_nth; auto.
    apply (tr_index_Some ST seqb seqb_ok) in H. rewrite E1, nth_error_app1; auto. eapply nth_error_lt; eauto.
  Qed.
  Lemma tle_find : forall T T' o l i, tle T T' -> find_labelid keqb no_opl T o l = Some i -> find_labelid keqb no_opl T' o l = Some i.
  Proof. intros T T' o l i HL H. unfold find_labelid in *. destruct o; auto; eapply tle_label; eauto. Qed.
  Lemma call_entry_mono : forall T T' cs p r i,
    (forall p to o opl wc pre w, In (TRule p to o opl wc pre w) cs -> find_labelid keqb no_opl T o opl <> None /\ forall l, In l pre -> exists_label keqb T l <> None) ->
    tle T T' -> (call_entry T cs p r i <-> call_entry T' cs p r i).
  Proof.
    intros T T' cs p r i HP HL. split; intros (o & opl & wc & pre & lid & H1 & H2 & H3 & H4); exists o, opl, wc, pre, lid; ands; auto.
    - eapply tle_find; eauto.
    - destruct H4 as [H4|(l & H4 & H5)]; auto. right. exists l. split; auto. eapply tle_label; eauto.
    - destruct (HP _ _ _ _ _ _ _ H1) as [K1 _]. destruct (find_labelid keqb no_opl T o opl) as [j|] eqn:E; [|congruence]. rewrite (tle_find _ _ _ _ _ HL E) in H2. congruence.
    - destruct H4 as [H4|(l & H4 & H5)]; auto. right. exists l. split; auto. destruct (HP _ _ _ _ _ _ _ H1) as [_ K2]. specialize (K2 _ H4).
      destruct (exists_label keqb T l) as [j|] eqn:E; [|congruence]. rewrite (tle_label _ _ _ _ HL E) in H5. congruence.
  Qed.
  Lemma call_entry_other : forall T cs c p r i, (forall p to o opl wc pre w, c <> TRule p to o opl wc pre w) -> (call_entry T (cs ++ [c]) p r i <-> call_entry T cs p r i).
  Proof.
    intros T cs c p r i HC. split; intros (o & opl & wc & pre & lid & H1 & H2); exists o, opl, wc, pre, lid; split; auto.
    - apply in_app_or in H1. destruct H1 as [H1|[H1|[]]]; auto. exfalso. eapply HC; eauto.
    - apply in_or_app; auto.
  Qed.
  Lemma encode_pre_spec : forall (T : tp) pre ids, encode_pre keqb T pre = Some ids -> (forall l, In l pre -> exists_label keqb T l <> None) /\
    forall i, In i ids <-> exists l, In l pre /\ exists_label keqb T l = Some i.
  Proof.
    induction pre as [|p pre IH]; intros ids H; cbn in H.
    - injection H as <-. split; [intros l []|]. intros i. split; [intros []|intros (l & [] & _)].
    - destruct (exists_label keqb T p) as [j|] eqn:E; [|discriminate]. cbn in H. destruct (encode_pre keqb T pre) as [js|] eqn:E2; [|discriminate]. injection H as <-.
      destruct (IH _ eq_refl) as [K1 K2]. split.
      + intros l [<-|Hl]; auto. congruence.
      + intros i. cbn. rewrite K2. split.
        * intros [<-|(l & H1 & H2)]; [exists p; auto|exists l; auto].
        * intros (l & [<-|H1] & H2); [left; congruence|right; eauto].
  Qed.

  Lemma tcall_inv : forall asserts cs T c T', tinv cs T -> do_tcall keqb seqb no_opl asserts T c = Some T' -> tinv (cs ++ [c]) T' /\ tle T T'.
  Proof.
    intros asserts cs T c T' [N NS En HL HS Hz Hs Hg HR HP] H. destruct c as [l|s|from to o opl wc pre w]; cbn [do_tcall] in H.
    - injection H as <-. unfold insert_label. destruct (ts_insert keqb (t_labels T) l) as [ls [b i]] eqn:E.
      destruct (ts_insert_spec K keqb keqb_ok _ _ _ _ _ E N) as (N' & Hn & Hb & Hl & Hi).
      set (T' := fst _). assert (HT : tle T T') by (split; [exists (if b then [l] else []); cbn; rewrite Hl; destruct b; auto; rewrite app_nil_r; auto|]; split; [exists []; cbn; rewrite app_nil_r; auto|]; auto).
      split; auto. constructor; cbn; auto.
      + intros l0. rewrite in_app_iff, Hl. destruct b.
        * rewrite in_app_iff, HL. cbn. split; [intros [H|[->|[]]]; auto|intros [H|[H|[]]]; auto; injection H as ->; auto].
        * rewrite HL. cbn. split; auto. intros [H|[H|[]]]; auto. injection H as ->. apply HL. rewrite Hl in Hn. eapply nth_error_In; eauto.
      + intros s. rewrite in_app_iff, HS. cbn. split; auto. intros [H|[H|[]]]; auto. discriminate.
      + intros p r ls0 j Hin Hj. specialize (Hg p r ls0 j Hin Hj). rewrite Hl. destruct b; auto. rewrite app_length. lia.
      + intros p r j. rewrite call_entry_other by discriminate. rewrite <- (call_entry_mono T); auto. apply HR.
      + intros p to o opl wc pre w Hin. apply in_app_or in Hin. destruct Hin as [Hin|[Hin|[]]]; [|discriminate]. destruct (HP _ _ _ _ _ _ _ Hin) as [K1 K2]. split.
        * destruct (find_labelid keqb no_opl T o opl) eqn:F; [|congruence]. intros C. assert (Q := tle_find _ _ _ _ _ HT F). change (find_labelid keqb no_opl T' o opl = None) in C. congruence.
        * intros l0 H0. specialize (K2 _ H0). destruct (exists_label keqb T l0) eqn:F; [|congruence]. intros C. assert (Q := tle_label _ _ _ _ HT F). change (exists_label keqb T' l0 = None) in C. congruence.
    - injection H as <-. unfold insert_state. destruct (ts_insert seqb (t_states T) s) as [ss [b i]] eqn:E.
      destruct (ts_insert_spec ST seqb seqb_ok _ _ _ _ _ E NS) as (N' & Hn & Hb & Hl & Hi).
      set (T' := fst _). assert (HT : tle T T') by (split; [exists []; cbn; rewrite app_nil_r; auto|]; split; [exists (if b then [s] else []); cbn; rewrite Hl; destruct b; auto; rewrite app_nil_r; auto|]; auto).
      split; auto. constructor; cbn [T' t_labels t_states t_rules fst snd]; auto.
      + unfold add_state. destruct (Nat.leb _ _); auto.
      + intros l. rewrite in_app_iff, HL. cbn. split; auto. intros [H|[H|[]]]; auto. discriminate.
      + intros l0. rewrite in_app_iff, Hl. destruct b.
        * rewrite in_app_iff, HS. cbn. split; [intros [H|[->|[]]]; auto|intros [H|[H|[]]]; auto; injection H as ->; auto].
        * rewrite HS. cbn. split; auto. intros [H|[H|[]]]; auto. injection H as ->. apply HS. rewrite Hl in Hn. eapply nth_error_In; eauto.
      + rewrite add_state_n. rewrite Hl. destruct b; [|lia]. rewrite Hi by auto. rewrite app_length. cbn. lia.
      + intros p. rewrite add_state_rules. auto.
      + intros p r ls j. rewrite add_state_rules. apply Hg.
      + intros p r j. rewrite call_entry_other by discriminate. rewrite <- (call_entry_mono T); auto. unfold stored. rewrite add_state_rules. apply HR.
      + intros p to o opl wc pre w Hin. apply in_app_or in Hin. destruct Hin as [Hin|[Hin|[]]]; [|discriminate]. apply (HP _ _ _ _ _ _ _ Hin).
    - unfold t_add_rule in H. destruct (find_labelid keqb no_opl T o opl) as [lid|] eqn:El; [|discriminate]. cbn [obind] in H.
      destruct (encode_pre keqb T pre) as [ids|] eqn:Ei; [|discriminate]. cbn [obind] in H. destruct (_ && _) in H; [discriminate|]. injection H as <-.
      destruct (encode_pre_spec _ _ _ Ei) as [K1 K2].
      split; [|apply (tle_trans T T); [apply tle_refl; auto|]; split; [exists []; cbn; rewrite app_nil_r; auto|]; split; [exists []; cbn; rewrite app_nil_r; auto|]; auto].
      constructor; cbn [t_labels t_states t_rules]; auto.
      + unfold add_rule_impl. cbn. unfold add_state. destruct (Nat.leb _ _); auto.
      + intros l. rewrite in_app_iff, HL. cbn. split; auto. intros [H|[H|[]]]; auto. discriminate.
      + intros l. rewrite in_app_iff, HS. cbn. split; auto. intros [H|[H|[]]]; auto. discriminate.
      + rewrite add_rule_n. lia.
      + apply add_rule_rsorted; auto.
      + intros p r ls i Hin Hi. rewrite add_rule_rules_at in Hin. destruct (Nat.eqb from p); [|eapply Hg; eauto].
        assert (HI : forall j, In j ids -> j < length (t_labels T)).
        { intros j Hj. apply K2 in Hj. destruct Hj as (l & _ & Hj). apply (tr_index_Some K keqb keqb_ok) in Hj. eapply nth_error_lt; eauto. }
        assert (HM : forall ls0, (forall j, In j (labs ls0) -> j < length (t_labels T)) -> forall j, In j (labs (merge ls0 wc ids)) -> j < length (t_labels T)).
        { intros ls0 H0 j Hj. unfold merge in Hj. destruct (wild ls0); auto. destruct wc; cbn in Hj; [tauto|]. apply set_union_In in Hj. destruct Hj; auto. }
        apply vm_emplace_mod_In in Hin; auto. destruct Hin as [[_ Hin]|[-> [(old & Hin & ->)|[_ ->]]]].
        * eapply Hg; eauto.
        * eapply HM; [|exact Hi]. intros j Hj. eapply Hg; eauto.
        * eapply HM; [|exact Hi]. intros j [].
      + intros p r i. rewrite add_rule_stored by auto. rewrite HR. split.
        * intros [(o1 & opl1 & wc1 & pre1 & lid1 & H1 & H2)|(-> & -> & H)].
          -- exists o1, opl1, wc1, pre1, lid1. split; [apply in_or_app; auto|]. auto.
          -- exists o, opl, wc, pre, lid. cbn. split; [apply in_or_app; right; cbn; auto|]. split; auto. split; auto. destruct H as [H|H]; auto. right. apply K2 in H. auto.
        * intros (o1 & opl1 & wc1 & pre1 & lid1 & H1 & H2 & H3 & H4). apply in_app_or in H1. destruct H1 as [H1|[H1|[]]].
          -- left. exists o1, opl1, wc1, pre1, lid1. auto.
          -- right. injection H1 as <- E1 <- <- <- <- E2. change (find_labelid keqb no_opl T o opl = Some lid1) in H2. rewrite El in H2. injection H2 as <-. rewrite H3, <- E1, <- E2. split; auto. split; auto.
             destruct H4 as [H4|H4]; auto. right. apply K2. auto.
      + intros p to1 o1 opl1 wc1 pre1 w1 Hin. apply in_app_or in Hin. destruct Hin as [Hin|[Hin|[]]]; [apply (HP _ _ _ _ _ _ _ Hin)|].
        injection Hin as <- <- <- <- <- <- <-. split; auto. change (find_labelid keqb no_opl T o opl <> None). congruence.
  Qed.
  Lemma empty_tinv : tinv [] tp_empty.
  Proof.
    constructor; cbn; auto; try constructor; try tauto.
    - intros p. unfold rules_at. cbn. destruct p; constructor.
    - intros p r ls i H. unfold rules_at in H. cbn in H. destruct p; destruct H.
    - intros (ls & H & _). unfold rules_at in H. cbn in H. destruct p; destruct H.
    - intros (o & opl & wc & pre & lid & [] & _).
  Qed.
  Lemma tcalls_inv_gen : forall asserts cs2 cs1 T T', tinv cs1 T -> do_tcalls keqb seqb no_opl asserts cs2 T = Some T' -> tinv (cs1 ++ cs2) T' /\ tle T T'.
  Proof.
    induction cs2 as [|c cs2 IH]; intros cs1 T T' HI H; cbn in H.
    - injection H as <-. rewrite app_nil_r. split; auto. apply tle_refl; apply HI.
    - destruct (do_tcall keqb seqb no_opl asserts T c) as [T1|] eqn:E; [|discriminate]. cbn in H. destruct (tcall_inv _ _ _ _ _ HI E) as [HI1 HL1].
      destruct (IH (cs1 ++ [c]) T1 T' HI1 H) as [HI2 HL2]. rewrite <- app_assoc in HI2. split; auto. eapply tle_trans; eauto.
  Qed.
  Lemma tcalls_inv : forall asserts cs T, do_tcalls keqb seqb no_opl asserts cs tp_empty = Some T -> tinv cs T.
  Proof. intros asserts cs T H. apply (tcalls_inv_gen asserts cs [] tp_empty T); auto. apply empty_tinv. Qed.

  (** The rules a sequence of calls declares. *)
  Definition declared (cs : list call) (r : trule K) : Prop :=
    exists opl wc pre, In (TRule (tr_from r) (tr_to r) (tr_op r) opl wc pre (tr_w r)) cs /\
      tr_opl r = (match tr_op r with POP | NOOP => kdef | _ => opl end) /\
      (if wc then In (TLabel (tr_pre r)) cs else In (tr_pre r) pre).

  Lemma label_nth : forall cs (T : tp) l i, tinv cs T -> (exists_label keqb T l = Some i <-> get_symbol T i = Some l).
  Proof. intros cs T l i HI. unfold exists_label, get_symbol, ts_exists, ts_at. apply tr_index_iff; auto. apply HI. Qed.
  Lemma state_nth : forall cs (T : tp) l i, tinv cs T -> (exists_state seqb T l = Some i <-> get_state T i = Some l).
  Proof. intros cs T l i HI. unfold exists_state, get_state, ts_exists, ts_at. apply tr_index_iff; auto. apply HI. Qed.

  Lemma all_rules_spec : forall cs T, tinv cs T -> exists rs, all_rules kdef T = Some rs /\ forall r, In r rs <-> declared cs r.
  Proof.
    intros cs T HI. set (pres := fun e : rule * labels => if wild (snd e) then seq 0 (length (t_labels T)) else labs (snd e)).
    assert (HS : forall p e i, In e (rules_at (t_rules T) p) -> In i (pres e) -> stored (t_rules T) p (fst e) i /\ i < length (t_labels T)).
    { intros p [r ls] i Hin Hi. unfold pres in Hi. cbn [snd fst] in *. unfold stored. destruct (wild ls) eqn:E.
      - apply in_seq in Hi. split; [exists ls; auto|lia].
      - split; [exists ls; auto|]. eapply (ti_range _ _ HI); eauto. }
    assert (HT : forall p e i, In e (rules_at (t_rules T) p) -> In i (pres e) -> exists tr, to_trule kdef T p i (fst e) = Some tr /\ declared cs tr).
    { intros p e i Hin Hi. destruct (HS p e i Hin Hi) as [H1 H2]. destruct e as [r ls]. cbn [fst] in *. apply (ti_rules _ _ HI) in H1. destruct H1 as (o & opl & wc & pre & lid & K1 & K2 & K3 & K4).
      unfold to_trule. destruct (get_symbol T i) as [pl|] eqn:Ep; [|apply nth_error_None in Ep; lia]. cbn [obind]. rewrite K3. cbn [r_op r_opl r_to r_w].
      assert (HO : (match o with POP | NOOP => Some kdef | _ => get_symbol T lid end) = Some (match o with POP | NOOP => kdef | _ => opl end)).
      { unfold find_labelid in K2. destruct o; auto; apply (label_nth cs); auto. }
      rewrite HO. cbn [obind]. eexists. split; [reflexivity|]. exists opl, wc, pre. cbn. split; auto. split; auto. destruct wc.
      - apply (ti_labs _ _ HI). eapply nth_error_In. exact Ep.
      - destruct K4 as [K4|(l & K4 & K5)]; [discriminate|]. apply (label_nth cs) in K5; auto. congruence. }
    assert (H1 : forall p e, In e (rules_at (t_rules T) p) -> exists ts, rules_of_entry kdef T p e = Some ts).
    { intros p e He. unfold rules_of_entry. apply omap_def. intros i Hi. destruct (HT p e i He Hi) as (tr & E & _). congruence. }
    assert (H2 : forall p, exists ts, (es <- omap (rules_of_entry kdef T p) (rules_at (t_rules T) p) ;; Some (concat es)) = Some ts).
    { intros p. destruct (omap_def _ _ (rules_of_entry kdef T p) (rules_at (t_rules T) p)) as [es E]; [intros e He; destruct (H1 p e He); congruence|]. rewrite E. cbn. eauto. }
    unfold all_rules. destruct (omap_def _ _ (fun i => es <- omap (rules_of_entry kdef T i) (rules_at (t_rules T) i) ;; Some (concat es)) (seq 0 (pd_n (t_rules T)))) as [ls E];
      [intros p _; destruct (H2 p); congruence|]. unfold rules_at in E at 1. rewrite E. cbn [obind]. exists (concat ls). split; auto. intros r. rewrite in_concat. split.
    - intros (ts & Hts & Hr). apply (omap_In _ _ _ _ _ _ E) in Hts. destruct Hts as (p & _ & Hts). change (ps_rules (nth p (pd_states (t_rules T)) empty_pstate)) with (rules_at (t_rules T) p) in Hts.
      destruct (omap (rules_of_entry kdef T p) (rules_at (t_rules T) p)) as [es|] eqn:Ee; [|discriminate]. injection Hts as <-. apply in_concat in Hr. destruct Hr as (x & Hx & Hr).
      apply (omap_In _ _ _ _ _ _ Ee) in Hx. destruct Hx as (e & He & Hx). unfold rules_of_entry in Hx. apply (omap_In _ _ _ _ _ _ Hx) in Hr. destruct Hr as (i & Hi & Hr).
      destruct (HT p e i He Hi) as (tr & E1 & Hd). congruence.
    - intros (opl & wc & pre & Hin & Ho & Hp). destruct (ti_pre _ _ HI _ _ _ _ _ _ _ Hin) as [P1 P2].
      destruct (find_labelid keqb no_opl T (tr_op r) opl) as [lid|] eqn:El; [|congruence].
      assert (HL : exists i, get_symbol T i = Some (tr_pre r)).
      { destruct wc.
        - apply (ti_labs _ _ HI), In_nth_error in Hp. auto.
        - specialize (P2 _ Hp). destruct (exists_label keqb T (tr_pre r)) as [i|] eqn:Ei; [|congruence]. exists i. apply (label_nth cs); auto. }
      destruct HL as [i Hi].
      assert (HE : stored (t_rules T) (tr_from r) (mk_rule (tr_to r) (tr_op r) lid (tr_w r)) i).
      { apply (ti_rules _ _ HI). exists (tr_op r), opl, wc, pre, lid. cbn. split; auto. split; auto. split; auto. destruct wc; auto. right. exists (tr_pre r). split; auto. apply (label_nth cs); auto. }
      destruct HE as (ls0 & HE1 & HE2). assert (Lp : tr_from r < pd_n (t_rules T)).
      { destruct (Nat.lt_ge_cases (tr_from r) (pd_n (t_rules T))); auto. rewrite rules_at_overflow in HE1 by auto. destruct HE1. }
      assert (Hpi : In i (pres (mk_rule (tr_to r) (tr_op r) lid (tr_w r), ls0))).
      { unfold pres. cbn [snd]. destruct (wild ls0) eqn:Ew; [apply in_seq; apply nth_error_lt in Hi; lia|]. destruct HE2; [discriminate|auto]. }
      destruct (H2 (tr_from r)) as [ts Ets]. destruct (omap (rules_of_entry kdef T (tr_from r)) (rules_at (t_rules T) (tr_from r))) as [es|] eqn:Ee; [|discriminate].
      destruct (H1 _ _ HE1) as [x Ex]. exists (concat es). split.
      + apply (omap_In _ _ _ _ _ _ E). exists (tr_from r). split; [apply in_seq; lia|]. change (ps_rules (nth (tr_from r) (pd_states (t_rules T)) empty_pstate)) with (rules_at (t_rules T) (tr_from r)). rewrite Ee. auto.
      + apply in_concat. exists x. split; [apply (omap_In _ _ _ _ _ _ Ee); eauto|]. unfold rules_of_entry in Ex. apply (omap_In _ _ _ _ _ _ Ex). exists i. split; auto.
        unfold to_trule. rewrite Hi. cbn [obind fst r_op r_opl r_to r_w].
        assert (HO : (match tr_op r with POP | NOOP => Some kdef | _ => get_symbol T lid end) = Some (tr_opl r)).
        { rewrite Ho. unfold find_labelid in El. destruct (tr_op r); auto; apply (label_nth cs); auto. }
        rewrite HO. cbn. destruct r; auto.
  Qed.
End Typed.

(** With the assertions on, and without repeated labels in a call, the stored rules are well formed. *)
Lemma vm_emplace_mod_ext : forall k v f g l, rsorted l -> (forall old, In (k, old) l -> f old = g old) -> ((forall old, ~ In (k, old) l) -> f v = g v) ->
  vm_emplace_mod k v f l = vm_emplace_mod k v g l.
Proof.
  induction l as [|[k' v'] l IH]; intros Hs H1 H2; cbn [vm_emplace_mod].
  - rewrite H2; auto.
  - pose proof Hs as Hs'. apply rsorted_cons in Hs. destruct Hs as [Hs Hx]. cbn [fst] in Hx. destruct (rule_ltb k' k) eqn:E1.
    + f_equal. apply IH; auto.
      * intros old Ho. apply H1. right; auto.
      * intros Hn. apply H2. intros old [Ho|Ho]; [|eapply Hn; eauto]. injection Ho as -> _. apply rule_ltb_spec in E1. eapply rlt_irrefl; eauto.
    + destruct (rule_eqb k' k) eqn:E2.
      * apply rule_eqb_eq in E2. subst k'. rewrite (H1 v'); [auto|left; auto].
      * rewrite H2; auto. assert (Hlt: rlt k k').
        { apply rule_ltb_false in E1. destruct E1 as [->|]; auto. exfalso. assert (rule_eqb k k = true) by (apply rule_eqb_eq; auto). congruence. }
        intros old [Ho|Ho]; [injection Ho as -> _; eapply rlt_irrefl; eauto|]. apply Hx in Ho. cbn in Ho. eapply rlt_irrefl. eapply rlt_trans; eauto.
Qed.
Lemma add_rule_ext : forall P from r w pre pre', (forall p, rsorted (rules_at P p)) ->
  (forall old, In (r, old) (rules_at P from) -> merge old w pre = merge old w pre') ->
  ((forall old, ~ In (r, old) (rules_at P from)) -> merge no_labels w pre = merge no_labels w pre') ->
  add_rule_impl P from r w pre = add_rule_impl P from r w pre'.
Proof.
  intros P from r w pre pre' HS H1 H2. unfold add_rule_impl. rewrite add_state_nth. change (ps_rules (nth from (pd_states P) empty_pstate)) with (rules_at P from).
  rewrite (vm_emplace_mod_ext r no_labels (fun ls => merge ls w pre) (fun ls => merge ls w pre') (rules_at P from)); auto.
Qed.
Lemma is_sorted_le : forall l, is_sorted l = true -> forall x l', l = x :: l' -> forall y, In y l' -> x <= y.
Proof.
  induction l as [|a l IH]; intros H x l' E y Hy; [discriminate|]. injection E as -> ->. destruct l' as [|b l']; [destruct Hy|].
  cbn in H. apply andb_true_iff in H. destruct H as [H1 H2]. apply Nat.leb_le in H1. destruct Hy as [<-|Hy]; auto.
  specialize (IH H2 b l' eq_refl y Hy). lia.
Qed.
Lemma is_sorted_tail : forall x l, is_sorted (x :: l) = true -> is_sorted l = true.
Proof. intros x [|y l] H; auto. cbn in H. apply andb_true_iff in H. tauto. Qed.
Lemma is_sorted_ssorted : forall l, is_sorted l = true -> NoDup l -> ssorted l.
Proof.
  induction l as [|x l IH]; intros H N; [constructor|]. inversion N; subst. apply ssorted_cons. split; [apply IH; auto; eapply is_sorted_tail; eauto|].
  intros y Hy. assert (L := is_sorted_le _ H x l eq_refl y Hy). assert (x <> y) by (intros ->; auto). lia.
Qed.
Lemma wf_grow : forall P n, wf_pda' P -> pd_nlab P <= n -> wf_pda' (mk_pda (pd_states P) n).
Proof.
  intros P n [H1 H2 H3 H4 H5 H6 H7] L. constructor; cbn [pd_nlab]; auto.
  - intros p r ls H. destruct (H6 p r ls H) as [K1 K2]. split; auto. intros l Hl. specialize (K2 l Hl). lia.
  - intros p r ls H Ho. specialize (H7 p r ls H Ho). lia.
Qed.
Lemma wf_add_state : forall P s, wf_pda' P -> wf_pda' (add_state P s).
Proof.
  intros P s [H1 H2 H3 H4 H5 H6 H7]. assert (E := add_state_rules P s). assert (F : forall p, pres_at (add_state P s) p = pres_at P p) by (intros; unfold pres_at; rewrite add_state_nth; auto).
  assert (G : pd_nlab (add_state P s) = pd_nlab P) by (unfold add_state; destruct (Nat.leb _ _); auto). assert (L := add_state_n P s).
  constructor; intros; rewrite ?E, ?F, ?G, ?L in *; eauto.
  - apply H1 in H. lia.
  - apply H3 in H. lia.
Qed.

Section TypedWf.
  Variables (K : Type) (keqb : K -> K -> bool).
  Variables (ST : Type) (seqb : ST -> ST -> bool).
  Variable no_opl : nat.
  Hypothesis keqb_ok : forall a b, keqb a b = true <-> a = b.
  Hypothesis seqb_ok : forall a b, seqb a b = true <-> a = b.
  Notation call := (tcall K ST).
  Definition nodup_call (c : call) : Prop := match c with TRule _ _ _ _ _ pre _ => NoDup pre | _ => True end.

  Lemma encode_pre_nodup : forall (T : tpda K ST) pre ids, NoDup pre -> encode_pre keqb T pre = Some ids -> NoDup ids.
  Proof.
    induction pre as [|p pre IH]; intros ids N H; cbn in H; [injection H as <-; constructor|].
    destruct (exists_label keqb T p) as [j|] eqn:E; [|discriminate]. cbn in H. destruct (encode_pre keqb T pre) as [js|] eqn:E2; [|discriminate]. injection H as <-.
    inversion N; subst. constructor; auto. intros Hj. apply (encode_pre_spec K keqb ST _ _ _ E2) in Hj. destruct Hj as (l & Hl & El).
    apply (tr_index_Some K keqb keqb_ok) in E. apply (tr_index_Some K keqb keqb_ok) in El. congruence.
  Qed.

  Lemma typed_wf_gen : forall cs2 cs1 T T', tinv K keqb ST no_opl cs1 T -> wf_pda' (t_rules T) -> Forall nodup_call cs2 ->
    do_tcalls keqb seqb no_opl true cs2 T = Some T' -> wf_pda' (t_rules T').
  Proof.
    induction cs2 as [|c cs2 IH]; intros cs1 T T' HI W HN H; cbn in H; [injection H as <-; auto|]. inversion HN as [|? ? N1 N2]; subst.
    destruct (do_tcall keqb seqb no_opl true T c) as [T1|] eqn:E; [|discriminate]. cbn in H.
    destruct (tcall_inv K keqb ST seqb no_opl keqb_ok seqb_ok true cs1 T c T1 HI E) as [HI1 _]. apply (IH (cs1 ++ [c]) T1); auto. clear IH H HN N2.
    destruct c as [l|s|from to o opl wc pre w]; cbn [do_tcall] in E.
    - injection E as <-. unfold insert_label. destruct (ts_insert keqb (t_labels T) l) as [ls [b i]] eqn:E. cbn. apply wf_grow; auto.
      rewrite (ti_n _ _ _ _ _ _ HI). unfold ts_insert in E. destruct (tr_index _ _ _); injection E as <- _ _; auto. rewrite app_length. lia.
    - injection E as <-. unfold insert_state. destruct (ts_insert seqb (t_states T) s) as [ss [b i]]. cbn. apply wf_add_state; auto.
    - unfold t_add_rule in E. destruct (find_labelid keqb no_opl T o opl) as [lid|] eqn:El; [|discriminate]. cbn [obind] in E.
      destruct (encode_pre keqb T pre) as [ids|] eqn:Ei; [|discriminate]. cbn [obind] in E.
      set (r := mk_rule to o lid w) in *.
      assert (R : forall j, In j ids -> j < pd_nlab (t_rules T)).
      { intros j Hj. apply (encode_pre_spec K keqb ST _ _ _ Ei) in Hj. destruct Hj as (l & _ & Hj). apply (tr_index_Some K keqb keqb_ok) in Hj. rewrite (ti_n _ _ _ _ _ _ HI). eapply nth_error_lt; eauto. }
      assert (RO : r_op r = PUSH \/ r_op r = SWAP -> r_opl r < pd_nlab (t_rules T)).
      { intros HO. rewrite (ti_n _ _ _ _ _ _ HI). unfold r in *. cbn in *. unfold find_labelid in El. destruct HO as [-> | ->]; apply (tr_index_Some K keqb keqb_ok) in El; eapply nth_error_lt; eauto. }
      assert (G : forall pre', ssorted pre' -> (forall j, In j pre' -> j < pd_nlab (t_rules T)) -> wf_pda' (add_rule_impl (t_rules T) from r wc pre')).
      { intros pre' G1 G2. apply (add_urule_wf (t_rules T) (mk_urule from r wc pre')); auto. split; auto. }
      assert (G0 : wf_pda' (add_rule_impl (t_rules T) from r wc [])) by (apply G; [constructor|intros j []]).
      assert (HS := ti_sorted _ _ _ _ _ _ HI).
      destruct (stored_wild (t_rules T) from r) eqn:Ew.
      + cbn in E. injection E as <-. cbn [t_rules]. rewrite (add_rule_ext _ _ _ _ ids []); auto.
        * intros old Ho. unfold stored_wild in Ew. apply existsb_exists in Ew. destruct Ew as ([r' ls] & Hin & Hb). cbn [fst snd] in Hb. apply andb_true_iff in Hb. destruct Hb as [Hb1 Hb2].
          apply rule_eqb_eq in Hb1. subst r'. rewrite (rsorted_key_inj _ _ _ _ (HS from) Ho Hin). unfold merge. rewrite Hb2. auto.
        * intros Hn. exfalso. unfold stored_wild in Ew. apply existsb_exists in Ew. destruct Ew as ([r' ls] & Hin & Hb). cbn [fst snd] in Hb. apply andb_true_iff in Hb. destruct Hb as [Hb1 _].
          apply rule_eqb_eq in Hb1. subst r'. eapply Hn. exact Hin.
      + destruct wc.
        * cbn in E. injection E as <-. cbn [t_rules]. rewrite (add_rule_ext _ _ _ _ ids []); auto.
        * destruct (is_sorted ids) eqn:Es; cbn in E; [|discriminate]. injection E as <-. cbn [t_rules]. apply G; auto. apply is_sorted_ssorted; auto. eapply encode_pre_nodup; eauto.
  Qed.
  Lemma typed_wf : forall cs T, Forall nodup_call cs -> do_tcalls keqb seqb no_opl true cs tp_empty = Some T -> wf_pda (t_rules T).
  Proof. intros cs T HN H. apply wf_pda'_wf. eapply typed_wf_gen; eauto; [apply empty_tinv|apply empty_wf]. Qed.
End TypedWf.
