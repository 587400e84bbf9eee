(** Refinement::combine and HeaderRefinement. *)
From Coq Require Import List Arith Lia Bool Permutation Sorted.
From Verif Require Import Base BaseFacts SpecFacts PdaModel PdaProof NfaModel NfaProof ConstructProof NfaQueryModel NfaQueryProof ContainersModel ContainersProof
  TrieModel RefineModel MappingProof.
Import ListNotations.

Lemma le_nth : forall l, StronglySorted le l -> forall i j x y, i < j -> nth_error l i = Some x -> nth_error l j = Some y -> x <= y.
Proof.
  induction 1 as [|z l S IH F]; intros i j x y L Hi Hj; [destruct i; discriminate|]. destruct j as [|j]; [lia|]. cbn in Hj. destruct i as [|i]; cbn in Hi.
  - injection Hi as <-. rewrite Forall_forall in F. apply F. eapply nth_error_In; eauto.
  - apply (IH i j); auto. lia.
Qed.
Lemma disj_spec : forall a b, StronglySorted le a -> StronglySorted le b -> exists r, disj a b = Some r /\ (r = true <-> forall x, In x a -> ~ In x b).
Proof.
  intros a b Sa Sb. unfold disj.
  destruct (is_disjoint_spec nat nat nat (fun x => x) (fun x => x) Nat.ltb) with (a := a) (b := b) as (r & E & R).
  - intros x y H. apply Nat.ltb_lt in H. apply Nat.ltb_ge. lia.
  - intros x y z H. rewrite !Nat.ltb_lt in *. lia.
  - intros i j x y Hij Hi Hj. apply Nat.ltb_ge. eapply (le_nth a); eauto.
  - intros i j x y Hij Hi Hj. apply Nat.ltb_ge. eapply (le_nth b); eauto.
  - change (is_disjoint Nat.ltb Nat.ltb a b = Some (Some r)) in E. rewrite E. cbn. exists r. split; auto. rewrite R. split.
    + intros H x Hx Hy. specialize (H x x Hx Hy). rewrite Nat.ltb_irrefl in H. destruct H; discriminate.
    + intros H x y Hx Hy. rewrite !Nat.ltb_lt. assert (x <> y) by (intros ->; eapply H; eauto). lia.
Qed.
Lemma disj_true : forall a b, ssorted a -> ssorted b -> (forall x, In x a -> ~ In x b) -> disj a b = Some true.
Proof.
  intros a b Sa Sb H. destruct (disj_spec a b) as (r & E & R); [apply ssorted_le; auto|apply ssorted_le; auto|]. rewrite E. f_equal. apply R. auto.
Qed.
Lemma merge_nat_cons : forall x a y b, merge_nat (x :: a) (y :: b) = if Nat.ltb y x then y :: merge_nat (x :: a) b else x :: merge_nat a (y :: b).
Proof. reflexivity. Qed.
Lemma merge_nat_nil_r : forall a, merge_nat a [] = a.
Proof. destruct a; reflexivity. Qed.
Lemma merge_nat_perm : forall a b, Permutation (merge_nat a b) (a ++ b).
Proof.
  induction a as [|x a IHa]; intros b; [cbn; auto|]. induction b as [|y b IHb]; [rewrite merge_nat_nil_r, app_nil_r; auto|].
  rewrite merge_nat_cons. destruct (Nat.ltb y x).
  - eapply perm_trans; [apply perm_skip; apply IHb|]. apply (Permutation_middle (x :: a) b y).
  - cbn. apply perm_skip. apply IHa.
Qed.
Lemma merge_nat_sorted : forall a b, StronglySorted le a -> StronglySorted le b -> StronglySorted le (merge_nat a b).
Proof.
  induction a as [|x a IHa]; intros b Sa Sb; [auto|]. induction b as [|y b IHb]; [rewrite merge_nat_nil_r; auto|].
  rewrite merge_nat_cons. inversion Sa; inversion Sb; subst. rewrite Forall_forall in *. destruct (Nat.ltb y x) eqn:E.
  - apply Nat.ltb_lt in E. constructor; auto. apply Forall_forall. intros z Hz. apply (Permutation_in _ (merge_nat_perm (x :: a) b)) in Hz. apply in_app_iff in Hz.
    destruct Hz as [[<-|Hz]|Hz]; [lia| |auto]. apply H2 in Hz. lia.
  - apply Nat.ltb_ge in E. constructor; auto. apply Forall_forall. intros z Hz. apply (Permutation_in _ (merge_nat_perm a (y :: b))) in Hz. apply in_app_iff in Hz.
    destruct Hz as [Hz|[<-|Hz]]; auto. apply H6 in Hz. lia.
Qed.
Lemma merge_nat_In : forall a b x, In x (merge_nat a b) <-> In x a \/ In x b.
Proof.
  intros a b x. rewrite <- in_app_iff. split; apply Permutation_in; [|apply Permutation_sym]; apply merge_nat_perm.
Qed.
Lemma merge_nat_ssorted : forall a b, ssorted a -> ssorted b -> (forall x, In x a -> ~ In x b) -> ssorted (merge_nat a b).
Proof.
  intros a b Sa Sb D. apply le_NoDup_ssorted; [apply merge_nat_sorted; apply ssorted_le; auto|].
  eapply Permutation_NoDup; [apply Permutation_sym, merge_nat_perm|]. apply NoDup_app_intro; auto using ssorted_NoDup.
Qed.
Lemma is_nil_iff : forall A (l : list A), is_nil l = true <-> l = [].
Proof. intros A [|x l]; cbn; split; congruence. Qed.

Section Combine.
  Variables (Q : list nat * list nat) (P0 : list (list nat)).
  Notation q o := (get2 o Q).
  Hypothesis Qs : forall o, ssorted (q o).
  Hypothesis Qd : forall x, In x (fst Q) -> ~ In x (snd Q).
  Lemma Qd' : forall o x, In x (q o) -> ~ In x (q (negb o)).
  Proof. intros [|] x; cbn; intros H1 H2; eapply Qd; eauto. Qed.

  Lemma inter_spec : forall i p al ok, exists al' ok' em, fold_left (cm_inter Q i p) [false; true] (al, ok, false) = (al', ok', em) /\
    (forall o, get2 o al' = get2 o al ++ set_inter p (q o)) /\
    (em = false <-> forall o, set_inter p (q o) <> []) /\ (em = false -> ok' = ok) /\
    (forall o, get2 o ok' = get2 o ok \/ get2 o ok' = Some i /\ set_inter p (q (negb o)) = []) /\
    ((forall o, get2 o ok <> Some i) -> (forall k, fst ok = Some k -> snd ok <> Some k) -> forall k, fst ok' = Some k -> snd ok' <> Some k).
  Proof.
    intros i p [a0 a1] [k0 k1]. cbn [fold_left]. unfold cm_inter at 2. cbn [get2 set2 negb fst snd].
    destruct (set_inter p (fst Q)) as [|x s0] eqn:E0; cbn [is_nil].
    - destruct (is_none k1 && negb (same_id k0 i)) eqn:B; unfold cm_inter; cbn [get2 set2 negb fst snd]; destruct (set_inter p (snd Q)) as [|y s1] eqn:E1; cbn [is_nil].
      + cbn [same_id]. rewrite Nat.eqb_refl, andb_false_r. eexists _, _, true. split; [reflexivity|]. cbn [fst snd]. ands.
        * intros [|]; cbn; rewrite ?E0, ?E1; auto.
        * split; [discriminate|]. intros H. exfalso. apply (H false). auto.
        * discriminate.
        * intros [|]; cbn; auto.
        * intros H1 H2 k H3 H4. apply (H1 false). cbn. congruence.
      + eexists _, _, true. split; [reflexivity|]. cbn [fst snd]. ands.
        * intros [|]; cbn; rewrite ?E0, ?E1; auto.
        * split; [discriminate|]. intros H. exfalso. apply (H false). auto.
        * discriminate.
        * intros [|]; cbn; auto.
        * intros H1 H2 k H3 H4. apply (H1 false). cbn. congruence.
      + eexists _, _, true. split; [reflexivity|]. ands.
        * intros [|]; cbn; rewrite ?E0, ?E1; auto.
        * split; [discriminate|]. intros H. exfalso. apply (H false). auto.
        * discriminate.
        * destruct (is_none k0 && negb (same_id k1 i)); intros [|]; cbn; auto.
        * intros H1 H2 k. destruct (is_none k0 && negb (same_id k1 i)); cbn; auto. intros H3 H4. apply (H1 true). cbn. congruence.
      + eexists _, _, true. split; [reflexivity|]. cbn [fst snd]. ands.
        * intros [|]; cbn; rewrite ?E0, ?E1; auto.
        * split; [discriminate|]. intros H. exfalso. apply (H false). auto.
        * discriminate.
        * intros [|]; cbn; auto.
        * auto.
    - unfold cm_inter; cbn [get2 set2 negb fst snd]; destruct (set_inter p (snd Q)) as [|y s1] eqn:E1; cbn [is_nil].
      + eexists _, _, true. split; [reflexivity|]. ands.
        * intros [|]; cbn; rewrite ?E0, ?E1; auto.
        * split; [discriminate|]. intros H. exfalso. apply (H true). auto.
        * discriminate.
        * destruct (is_none k0 && negb (same_id k1 i)); intros [|]; cbn; auto.
        * intros H1 H2 k. destruct (is_none k0 && negb (same_id k1 i)); cbn; auto. intros H3 H4. apply (H1 true). cbn. congruence.
      + eexists _, _, false. split; [reflexivity|]. cbn [fst snd]. ands.
        * intros [|]; cbn; rewrite ?E0, ?E1; auto.
        * split; auto. intros _ [|]; cbn; rewrite ?E0, ?E1; discriminate.
        * auto.
        * intros [|]; cbn; auto.
        * auto.
  Qed.
  Notation n := (length P0).
  Notation at_ l j x := (exists p, nth_error l j = Some p /\ In x p).
  (** Parts that have been looked at: below i and the new ones. *)
  Definition seen (i j : nat) : Prop := j < i \/ n <= j.
  Definition meets (p : list nat) (o : bool) : Prop := exists x, In x p /\ In x (q o).
  Record CB (i : nat) (c : cmb) : Prop := mk_CB {
    cb_sorted : forall j p, nth_error (cm_parts c) j = Some p -> ssorted p;
    cb_disj : forall j k x, at_ (cm_parts c) j x -> at_ (cm_parts c) k x -> j = k;
    cb_todo : forall j, i <= j < n -> nth_error (cm_parts c) j = nth_error P0 j;
    cb_len : n <= length (cm_parts c);
    cb_cover : forall x, (exists j, at_ (cm_parts c) j x) <-> (exists j, at_ P0 j x);
    cb_origin : forall j, j < length (cm_parts c) -> exists k, forall x, at_ (cm_parts c) j x -> at_ P0 k x;
    cb_ok : forall j p, seen i j -> nth_error (cm_parts c) j = Some p -> ~ (meets p false /\ meets p true);
    cb_in : forall o x, In x (get2 o (cm_in c)) <-> In x (q o) /\ exists j, j < i /\ at_ P0 j x;
    cb_in_nodup : forall o, NoDup (get2 o (cm_in c));
    cb_id : forall o k, get2 o (cm_ok c) = Some k -> seen i k /\ exists p, nth_error (cm_parts c) k = Some p /\ ~ meets p (negb o);
    cb_ids : forall k, fst (cm_ok c) = Some k -> snd (cm_ok c) <> Some k;
    cb_together : forall k x y, at_ P0 k x -> at_ P0 k y -> (forall o, In x (q o) <-> In y (q o)) -> forall j, at_ (cm_parts c) j x -> at_ (cm_parts c) j y;
    cb_nonempty : (forall p, In p P0 -> p <> []) -> forall p, In p (cm_parts c) -> p <> []
  }.
  Hypothesis Ps : forall j p, nth_error P0 j = Some p -> ssorted p.
  Hypothesis Pd : forall j k x, at_ P0 j x -> at_ P0 k x -> j = k.
  Lemma CB_init : CB 0 (mk_cmb P0 ([], []) (None, None)).
  Proof.
    split; cbn [cm_parts cm_in cm_ok]; auto; try tauto.
    - intros j Hj. eauto.
    - intros j p [Hj|Hj] E; [lia|]. apply nth_error_lt in E. lia.
    - intros [|] x; cbn; split; try tauto; intros (_ & j & Hj & _); lia.
    - intros [|]; cbn; constructor.
    - intros [|] k; cbn; discriminate.
    - cbn. discriminate.
    - intros k x y H1 H2 _ j H3. assert (j = k) by (eapply Pd; eauto). subst. auto.
  Qed.
  Lemma at_upd : forall (l : list (list nat)) i p j x, i < length l -> (at_ (upd l i p) j x <-> (j = i /\ In x p) \/ (j <> i /\ at_ l j x)).
  Proof.
    intros l i p j x L. destruct (Nat.eq_dec j i) as [->|Nj].
    - rewrite nth_error_upd_eq; auto. split; [intros (p' & E & H); injection E as <-; auto|]. intros [[_ H]|[H _]]; [eauto|congruence].
    - rewrite nth_error_upd_neq; auto. split; [auto|]. intros [[H _]|[_ H]]; [congruence|auto].
  Qed.
  Lemma at_snoc : forall (l : list (list nat)) p j x, at_ (l ++ [p]) j x <-> at_ l j x \/ (j = length l /\ In x p).
  Proof.
    intros l p j x. destruct (lt_dec j (length l)) as [L|L].
    - rewrite nth_error_app1; auto. split; [auto|]. intros [H|[-> _]]; [auto|lia].
    - rewrite nth_error_app2; [|lia]. split.
      + intros (p' & E & H). right. destruct (j - length l) as [|[|z]] eqn:Ez; cbn in E; try discriminate. injection E as <-. split; auto. lia.
      + intros [(p' & E & H)|[-> H]]; [apply nth_error_lt in E; lia|]. rewrite Nat.sub_diag. cbn. eauto.
  Qed.
  Lemma skipn_app_len : forall A (a b : list A), skipn (length a) (a ++ b) = b.
  Proof. intros. rewrite skipn_app, skipn_all, Nat.sub_diag. reflexivity. Qed.
  Lemma round_spec : forall i c, i < n -> CB i c -> exists c', cm_round Q c i = Some c' /\ CB (S i) c'.
  Proof.
    intros i c Li C. unfold cm_round. destruct (nth_error_ex _ P0 i Li) as [p Ep].
    assert (Ec: nth_error (cm_parts c) i = Some p) by (rewrite (cb_todo _ _ C); [auto|lia]). rewrite Ec. cbn [obind].
    destruct (inter_spec i p (cm_in c) (cm_ok c)) as (al & ok & em & E & I1 & I2 & I3 & I4 & I5). rewrite E.
    pose proof (Ps _ _ Ep) as Sp.
    assert (SI: forall o x, In x (set_inter p (q o)) <-> In x p /\ In x (q o)) by (intros; apply set_inter_In; auto).
    assert (Hnew: forall o, get2 o (cm_ok c) <> Some i).
    { intros o H. apply (cb_id _ _ C) in H. destruct H as [[H|H] _]; lia. }
    assert (Hin: forall o x, In x (get2 o al) <-> In x (q o) /\ exists j, j < S i /\ at_ P0 j x).
    { intros o x. rewrite I1, in_app_iff, SI, (cb_in _ _ C). split.
      - intros [[H1 (j & H2 & H3)]|[H1 H2]]; split; auto; [exists j|exists i]; split; auto. eauto.
      - intros [H1 (j & H2 & H3)]. destruct (Nat.eq_dec j i) as [->|Nj]; [right|left; split; auto; exists j; split; auto; lia].
        destruct H3 as (p' & H3 & H4). assert (p' = p) by congruence. subst. auto. }
    assert (Hnd: forall o, NoDup (get2 o al)).
    { intros o. rewrite I1. apply NoDup_app_intro; [apply (cb_in_nodup _ _ C)|apply ssorted_NoDup; apply set_inter_ssorted; auto|].
      intros x H1 H2. apply SI in H2. apply (cb_in _ _ C) in H1. destruct H1 as (_ & j & Hj & H1). assert (j = i); [|lia]. apply (Pd j i x); auto. exists p. tauto. }
    assert (Hnm: forall o, set_inter p (q o) = [] -> ~ meets p o).
    { intros o H (x & H1 & H2). assert (In x (set_inter p (q o))) by (apply SI; auto). rewrite H in H0. destruct H0. }
    destruct em.
    - eexists. split; [reflexivity|]. split; cbn [cm_parts cm_in cm_ok]; auto; try apply C.
      + intros j Hj. apply (cb_todo _ _ C). lia.
      + intros j p' [Hj|Hj] E'; [|apply (cb_ok _ _ C j p'); [right; auto|auto]]. destruct (Nat.eq_dec j i) as [->|Nj]; [|apply (cb_ok _ _ C j p'); [left; lia|auto]].
        assert (p' = p) by congruence. subst p'.
        assert (exists o, set_inter p (q o) = []).
        { destruct (set_inter p (q false)) eqn:F0; [exists false; auto|]. destruct (set_inter p (q true)) eqn:F1; [exists true; auto|]. exfalso.
          assert (true = false); [|discriminate]. apply I2. intros [|]; congruence. }
        destruct H as [[|] H]; apply Hnm in H; tauto.
      + intros o k Hk. destruct (I4 o) as [H|[H1 H2]].
        * rewrite H in Hk. destruct (cb_id _ _ C o k Hk) as [[S1|S1] S2]; split; auto; [left; lia|right; auto].
        * rewrite H1 in Hk. injection Hk as <-. split; [left; lia|]. exists p. auto.
      + intros k Hk. apply I5; auto. intros k'. apply (cb_ids _ _ C).
    - specialize (I3 eq_refl). subst ok. assert (I2': forall o, set_inter p (q o) <> []) by (apply I2; auto). clear I2 I4 I5.
      set (mv := if Nat.ltb _ _ then false else true). clearbody mv.
      rewrite I1, skipn_app_len. set (part := set_inter p (q mv)).
      set (N := length (cm_parts c)) in *. pose proof (cb_len _ _ C) as LN. fold N in LN.
      assert (Lp: i < length (cm_parts c ++ [part])) by (rewrite app_length; cbn; fold N; lia).
      assert (Spart: ssorted part) by (apply set_inter_ssorted; auto).
      assert (SD: forall x, In x (set_diff p part) <-> In x p /\ ~ In x (q mv)).
      { intros x. rewrite set_diff_In; auto. unfold part. rewrite SI. tauto. }
      assert (Hat: forall j x, at_ (upd (cm_parts c ++ [part]) i (set_diff p part)) j x <->
        (j = i /\ In x p /\ ~ In x (q mv)) \/ (j = N /\ In x p /\ In x (q mv)) \/ (j <> i /\ at_ (cm_parts c) j x)).
      { intros j x. rewrite at_upd; auto. rewrite SD, at_snoc. unfold part. rewrite SI. fold N. split.
        - intros [H|[H1 [H2|[H2 H3]]]]; auto.
        - intros [H|[[-> H]|[H1 H2]]]; auto. right. split; [lia|]. auto. }
      assert (Hpi: forall x, In x p <-> at_ (cm_parts c) i x).
      { intros x. rewrite Ec. split; [eauto|]. intros (p' & H1 & H2). congruence. }
      assert (HN: forall x, ~ at_ (cm_parts c) N x). { intros x (p' & H & _). apply nth_error_lt in H. unfold N in H. lia. }
      assert (Pi: nth_error (upd (cm_parts c ++ [part]) i (set_diff p part)) i = Some (set_diff p part)) by (apply nth_error_upd_eq; auto).
      assert (PN: nth_error (upd (cm_parts c ++ [part]) i (set_diff p part)) N = Some part).
      { rewrite nth_error_upd_neq; [|lia]. rewrite nth_error_app2; [|unfold N; lia]. unfold N. rewrite Nat.sub_diag. reflexivity. }
      assert (Po: forall j, j <> i -> j < N -> nth_error (upd (cm_parts c ++ [part]) i (set_diff p part)) j = nth_error (cm_parts c) j).
      { intros j H1 H2. rewrite nth_error_upd_neq; auto. rewrite nth_error_app1; auto. }
      assert (Hcase: forall j p', nth_error (upd (cm_parts c ++ [part]) i (set_diff p part)) j = Some p' ->
        (j = i /\ p' = set_diff p part) \/ (j = N /\ p' = part) \/ (j <> i /\ j < N /\ nth_error (cm_parts c) j = Some p')).
      { intros j p' H. destruct (Nat.eq_dec j i) as [->|N1]; [left; split; auto; congruence|]. right. destruct (Nat.eq_dec j N) as [->|N2]; [left; split; auto; congruence|].
        right. pose proof (nth_error_lt _ _ _ _ H) as L. rewrite upd_length, app_length in L. cbn in L. fold N in L. ands; auto; [lia|]. rewrite <- Po; auto. lia. }
      assert (Hmi: ~ meets (set_diff p part) mv). { intros (x & H1 & H2). apply SD in H1. tauto. }
      assert (HmN: ~ meets part (negb mv)). { intros (x & H1 & H2). unfold part in H1. apply SI in H1. apply (Qd' mv x); tauto. }
      eexists. split; [reflexivity|]. split; cbn [cm_parts cm_in cm_ok]; auto.
      + intros j p' H. apply Hcase in H. destruct H as [[-> ->]|[[-> ->]|(_ & _ & H)]]; [apply set_diff_ssorted; auto|auto|]. apply (cb_sorted _ _ C j); auto.
      + intros j k x H1 H2. rewrite Hat in H1, H2.
        destruct H1 as [(-> & H1 & H1')|[(-> & H1 & H1')|(H1 & H1')]], H2 as [(-> & H2 & H2')|[(-> & H2 & H2')|(H2 & H2')]]; auto; try tauto.
        * exfalso. apply H2. apply (cb_disj _ _ C _ _ x); auto; apply Hpi; auto.
        * exfalso. apply H2. apply (cb_disj _ _ C _ _ x); auto; apply Hpi; auto.
        * exfalso. apply H1. apply (cb_disj _ _ C _ _ x); auto; apply Hpi; auto.
        * exfalso. apply H1. apply (cb_disj _ _ C _ _ x); auto; apply Hpi; auto.
        * eapply (cb_disj _ _ C); eauto.
      + intros j Hj. rewrite Po; [|lia|lia]. apply (cb_todo _ _ C). lia.
      + rewrite upd_length, app_length. cbn. fold N. lia.
      + intros x. rewrite <- (cb_cover _ _ C). split.
        * intros (j & H). rewrite Hat in H. destruct H as [(-> & H & _)|[(-> & H & _)|(_ & H)]]; [exists i; apply Hpi; auto|exists i; apply Hpi; auto|eauto].
        * intros (j & H). destruct (Nat.eq_dec j i) as [->|Nj]; [|exists j; apply Hat; auto]. apply Hpi in H. destruct (in_dec Nat.eq_dec x (q mv)) as [H1|H1]; [exists N|exists i]; apply Hat; auto.
      + intros j Hj. destruct (lt_dec j N) as [L|L].
        * destruct (cb_origin _ _ C j L) as [k Hk]. exists k. intros x H. apply Hk. rewrite Hat in H. destruct H as [(-> & H & _)|[(-> & H & _)|(_ & H)]]; auto; [apply Hpi; auto|lia].
        * exists i. intros x H. rewrite Hat in H. destruct H as [(-> & H & _)|[(-> & H & _)|(_ & H)]]; eauto. destruct H as (p' & H & _). apply nth_error_lt in H. fold N in H. lia.
      + intros j p' Hs H. apply Hcase in H. destruct H as [[-> ->]|[[-> ->]|(N1 & N2 & H)]].
        * destruct mv; tauto.
        * destruct mv; cbn in HmN; tauto.
        * apply (cb_ok _ _ C j p'); auto. destruct Hs as [Hs|Hs]; [left; lia|right; auto].
      + intros o k. assert (Hcond: get2 o (match fst (cm_ok c) with None => None | Some _ => Some (if Bool.eqb mv false then N else i) end, match snd (cm_ok c) with None => None | Some _ => Some (if Bool.eqb mv true then N else i) end) = Some k -> k = if Bool.eqb mv o then N else i).
        { destruct o; cbn; [destruct (snd (cm_ok c))|destruct (fst (cm_ok c))]; congruence. }
        intros H. apply Hcond in H. subst k. destruct (Bool.eqb mv o) eqn:Eo.
        * apply eqb_prop in Eo. subst o. split; [right; lia|]. exists part. auto.
        * split; [left; lia|]. exists (set_diff p part). split; auto. replace (negb o) with mv; auto. destruct mv, o; cbn in *; congruence.
      + intros k. cbn [fst snd]. unfold get2. destruct (fst (cm_ok c)), (snd (cm_ok c)); try discriminate. intros H1 H2. destruct mv; cbn in *; assert (i = N) by congruence; lia.
      + intros k x y H1 H2 H3 j H4. rewrite Hat in H4. rewrite Hat.
        assert (Hsame: forall j, at_ (cm_parts c) j x -> at_ (cm_parts c) j y) by (apply (cb_together _ _ C k); auto).
        destruct H4 as [(-> & H4 & H5)|[(-> & H4 & H5)|(H4 & H5)]].
        * left. ands; auto; [apply Hpi, Hsame, Hpi; auto|]. rewrite <- H3. auto.
        * right. left. ands; auto; [apply Hpi, Hsame, Hpi; auto|]. rewrite <- H3. auto.
        * right. right. auto.
      + intros Hne p' Hp'. apply In_nth_error in Hp'. destruct Hp' as [j Hj]. apply Hcase in Hj. destruct Hj as [[_ ->]|[[_ ->]|(_ & _ & H)]].
        * intros Hz. destruct (set_inter p (q (negb mv))) as [|x s] eqn:Ex; [apply (I2' (negb mv)); auto|].
          assert (Hx: In x (set_inter p (q (negb mv)))) by (rewrite Ex; cbn; auto). apply SI in Hx. assert (In x (set_diff p part)).
          { apply SD. split; [tauto|]. intros H. apply (Qd' mv x); tauto. }
          rewrite Hz in H. destruct H.
        * apply I2'.
        * apply (cb_nonempty _ _ C Hne). eapply nth_error_In; eauto.
  Qed.
  Lemma rounds_spec : exists c, ofold (cm_round Q) (seq 0 n) (mk_cmb P0 ([], []) (None, None)) = Some c /\ CB n c.
  Proof.
    assert (H: forall k i c, i + k = n -> CB i c -> exists c', ofold (cm_round Q) (seq i k) c = Some c' /\ CB n c').
    { induction k as [|k IH]; intros i c Hi C; cbn [seq ofold]; [exists c; replace n with i by lia; auto|].
      destruct (round_spec i c) as (c1 & E1 & C1); [lia|auto|]. rewrite E1. cbn [obind]. apply IH; auto. lia. }
    apply H; auto. apply CB_init.
  Qed.
  (** What is left of Q. *)
  Record RB (ps : list (list nat)) : Prop := mk_RB {
    rb_sorted : forall j p, nth_error ps j = Some p -> ssorted p;
    rb_disj : forall j k x, at_ ps j x -> at_ ps k x -> j = k;
    rb_ok : forall j p, nth_error ps j = Some p -> ~ (meets p false /\ meets p true)
  }.
  Lemma NoDup_incl_length_eq : forall (a b : list nat), NoDup a -> incl a b -> length b <= length a -> incl b a.
  Proof. intros a b N I L. apply NoDup_length_incl; auto. Qed.
  Lemma rest_spec : forall o al ok ps, RB ps -> NoDup (get2 o al) ->
    (forall x, In x (get2 o al) <-> In x (q o) /\ exists j, at_ ps j x) ->
    (forall k, get2 o ok = Some k -> exists p, nth_error ps k = Some p /\ ~ meets p (negb o)) ->
    exists ps', cm_rest Q al ok ps o = Some ps' /\ RB ps' /\ length ps <= length ps' /\
      (forall j x, at_ ps j x -> at_ ps' j x) /\ (forall x, (exists j, at_ ps' j x) <-> (exists j, at_ ps j x) \/ In x (q o)) /\
      (forall j, j < length ps -> get2 o ok <> Some j -> nth_error ps' j = nth_error ps j) /\
      ((forall p, In p ps -> p <> []) -> forall p, In p ps' -> p <> []).
  Proof.
    intros o al ok ps B Nal Hal Hok. unfold cm_rest. destruct (Nat.eqb_spec (length (get2 o al)) (length (q o))) as [L|L].
    - exists ps. ands; auto. intros x. split; auto. intros [H|H]; auto. apply (Hal x). apply (NoDup_incl_length_eq (get2 o al) (q o)); auto; [|lia]. intros y Hy. apply Hal; auto.
    - pose proof (sort_nat_ssorted _ Nal) as Sal.
      set (rest := set_diff (q o) (sort_nat (get2 o al))).
      assert (Srest: ssorted rest) by (apply set_diff_ssorted; auto).
      assert (Hrest: forall x, In x rest <-> In x (q o) /\ ~ exists j, at_ ps j x).
      { intros x. unfold rest. rewrite set_diff_In; auto. rewrite sort_nat_In, Hal. tauto. }
      assert (Nrest: rest <> []).
      { intros Hr. assert (incl (q o) (get2 o al)).
        { intros x Hx. destruct (in_dec Nat.eq_dec x (get2 o al)) as [|H]; auto. exfalso. assert (In x rest); [|rewrite Hr in *; auto].
          unfold rest. apply set_diff_In; auto. rewrite sort_nat_In. auto. }
        apply L. apply Nat.le_antisymm; apply NoDup_incl_length; auto; [|apply ssorted_NoDup; auto]. intros y Hy. apply Hal; auto. }
      assert (Hfresh: forall j x, at_ ps j x -> ~ In x rest) by (intros j x H1 H2; apply Hrest in H2; apply (proj2 H2); eauto).
      destruct (get2 o ok) as [k|] eqn:Ek.
      + destruct (Hok k eq_refl) as (p & Ep & Hm). rewrite Ep. cbn [obind]. pose proof (nth_error_lt _ _ _ _ Ep) as Lk.
        exists (upd ps k (merge_nat p rest)).
        assert (Hp: forall x, In x p <-> at_ ps k x) by (intros x; rewrite Ep; split; [eauto|intros (p' & H1 & H2); congruence]).
        assert (Hat: forall j x, at_ (upd ps k (merge_nat p rest)) j x <-> at_ ps j x \/ (j = k /\ In x rest)).
        { intros j x. rewrite at_upd; auto. rewrite merge_nat_In, Hp. destruct (Nat.eq_dec j k) as [->|Nj]; [tauto|]. intuition congruence. }
        assert (Hc: forall j p', nth_error (upd ps k (merge_nat p rest)) j = Some p' -> (j = k /\ p' = merge_nat p rest) \/ (j <> k /\ nth_error ps j = Some p')).
        { intros j p' H. destruct (Nat.eq_dec j k) as [->|Nj]; [rewrite nth_error_upd_eq in H; auto; left; split; congruence|]. rewrite nth_error_upd_neq in H; auto. }
        ands; auto.
        * split.
          -- intros j p' H. apply Hc in H. destruct H as [[-> ->]|[_ H]]; [|apply (rb_sorted _ B j); auto].
             apply merge_nat_ssorted; auto; [apply (rb_sorted _ B k); auto|]. intros x Hx. apply (Hfresh k). apply Hp; auto.
          -- intros j l x H1 H2. rewrite Hat in H1, H2. destruct H1 as [H1|[-> H1]], H2 as [H2|[-> H2]]; auto.
             ++ apply (rb_disj _ B _ _ x); auto.
             ++ exfalso. apply (Hfresh j x); auto.
             ++ exfalso. apply (Hfresh l x); auto.
          -- intros j p' H. apply Hc in H. destruct H as [[-> ->]|[_ H]]; [|apply (rb_ok _ B j); auto].
             assert (~ meets (merge_nat p rest) (negb o)); [|destruct o; cbn in *; tauto]. intros (x & H1 & H2). apply merge_nat_In in H1. destruct H1 as [H1|H1].
             ++ apply Hm. exists x. auto.
             ++ apply Hrest in H1. apply (Qd' o x); tauto.
        * rewrite upd_length. auto.
        * intros j x H. apply Hat. auto.
        * intros x. split.
          -- intros (j & H). rewrite Hat in H. destruct H as [H|[_ H]]; [eauto|]. apply Hrest in H. tauto.
          -- intros H. destruct (in_dec Nat.eq_dec x rest) as [Hi|Hi]; [exists k; apply Hat; auto|]. assert (exists j, at_ ps j x) as [j Hj]; [|exists j; apply Hat; auto].
             destruct H as [H|H]; auto. apply (proj1 (Hal x)). destruct (in_dec Nat.eq_dec x (get2 o al)) as [|Hn]; auto. exfalso. apply Hi. unfold rest. apply set_diff_In; auto. rewrite sort_nat_In. auto.
        * intros j Hj H. apply nth_error_upd_neq. congruence.
        * intros Hne p' H. apply In_nth_error in H. destruct H as [j H]. apply Hc in H. destruct H as [[-> ->]|[_ H]]; [|apply Hne; eapply nth_error_In; eauto].
          destruct rest as [|x rest']; [congruence|]. intros Hz. assert (In x (merge_nat p (x :: rest'))) by (apply merge_nat_In; cbn; auto). rewrite Hz in H. destruct H.
      + exists (ps ++ [rest]).
        assert (Hc: forall j p', nth_error (ps ++ [rest]) j = Some p' -> (j = length ps /\ p' = rest) \/ (nth_error ps j = Some p')).
        { intros j p' H. destruct (lt_dec j (length ps)) as [Lj|Lj]; [rewrite nth_error_app1 in H; auto|]. rewrite nth_error_app2 in H; [|lia]. left.
          destruct (j - length ps) as [|[|z]] eqn:Ez; cbn in H; try discriminate. injection H as <-. split; auto. lia. }
        ands; auto.
        * split.
          -- intros j p' H. apply Hc in H. destruct H as [[-> ->]|H]; [auto|apply (rb_sorted _ B j); auto].
          -- intros j l x H1 H2. rewrite at_snoc in H1, H2. destruct H1 as [H1|[-> H1]], H2 as [H2|[-> H2]]; auto.
             ++ apply (rb_disj _ B _ _ x); auto.
             ++ exfalso. apply (Hfresh j x); auto.
             ++ exfalso. apply (Hfresh l x); auto.
          -- intros j p' H. apply Hc in H. destruct H as [[-> ->]|H]; [|apply (rb_ok _ B j); auto].
             assert (~ meets rest (negb o)); [|destruct o; cbn in *; tauto]. intros (x & H1 & H2). apply Hrest in H1. apply (Qd' o x); tauto.
        * rewrite app_length. lia.
        * intros j x H. apply at_snoc. auto.
        * intros x. split.
          -- intros (j & H). rewrite at_snoc in H. destruct H as [H|[_ H]]; [eauto|]. apply Hrest in H. tauto.
          -- intros H. destruct (in_dec Nat.eq_dec x rest) as [Hi|Hi]; [exists (length ps); apply at_snoc; auto|]. assert (exists j, at_ ps j x) as [j Hj]; [|exists j; apply at_snoc; auto].
             destruct H as [H|H]; auto. apply (proj1 (Hal x)). destruct (in_dec Nat.eq_dec x (get2 o al)) as [|Hn]; auto. exfalso. apply Hi. unfold rest. apply set_diff_In; auto. rewrite sort_nat_In. auto.
        * intros j Hj _. apply nth_error_app1. auto.
        * intros Hne p' H. apply in_app_iff in H. destruct H as [H|[<-|[]]]; auto.
  Qed.
  Lemma combine_core : exists c ps, ofold (cm_round Q) (seq 0 n) (mk_cmb P0 ([], []) (None, None)) = Some c /\
    ofold (cm_rest Q (cm_in c) (cm_ok c)) [false; true] (cm_parts c) = Some ps /\ RB ps /\ n <= length ps /\
    (forall x, (exists j, at_ ps j x) <-> (exists j, at_ P0 j x) \/ In x (fst Q) \/ In x (snd Q)) /\
    (forall j k x y, at_ P0 j x -> at_ P0 k y -> j <> k -> forall i, at_ ps i x -> ~ at_ ps i y) /\
    (forall k x y, at_ P0 k x -> at_ P0 k y -> (forall o, In x (q o) <-> In y (q o)) -> forall j, at_ ps j x -> at_ ps j y) /\
    ((forall p, In p P0 -> p <> []) -> forall p, In p ps -> p <> []).
  Proof.
    destruct rounds_spec as (c & E & C). exists c.
    assert (B0: RB (cm_parts c)).
    { split; try apply C. intros j p H. apply (cb_ok _ _ C j); auto. unfold seen. lia. }
    assert (Hal: forall o x, In x (get2 o (cm_in c)) <-> In x (q o) /\ exists j, at_ (cm_parts c) j x).
    { intros o x. rewrite (cb_in _ _ C), (cb_cover _ _ C). split; intros [H1 (j & H2)]; split; auto; [exists j; tauto|]. exists j. split; auto.
      destruct H2 as (p & H2 & _). eapply nth_error_lt; eauto. }
    destruct (rest_spec false (cm_in c) (cm_ok c) (cm_parts c) B0 (cb_in_nodup _ _ C false) (Hal false)) as (p1 & E1 & B1 & L1 & M1 & V1 & K1 & Z1).
    { intros k Hk. apply (cb_id _ _ C) in Hk. tauto. }
    destruct (rest_spec true (cm_in c) (cm_ok c) p1 B1 (cb_in_nodup _ _ C true)) as (p2 & E2 & B2 & L2 & M2 & V2 & K2 & Z2).
    { intros x. rewrite Hal, V1. split; [tauto|]. intros [H1 [H2|H2]]; auto. exfalso. apply (Qd' true x); auto. }
    { intros k Hk. pose proof (cb_id _ _ C true k Hk) as (_ & p & Hp & Hm). exists p. split; auto. rewrite K1; auto; [eapply nth_error_lt; eauto|].
      intros Hf. apply (cb_ids _ _ C k Hf). auto. }
    exists p2. cbn [ofold]. rewrite E, E1. cbn [obind]. rewrite E2. cbn [obind]. ands; auto.
    - pose proof (cb_len _ _ C). lia.
    - intros x. rewrite V2, V1, (cb_cover _ _ C). cbn. tauto.
    - intros j k x y Hx Hy Hjk i Hi Hi'.
      assert (Hxc: exists j', at_ (cm_parts c) j' x) by (apply (cb_cover _ _ C); eauto). assert (Hyc: exists j', at_ (cm_parts c) j' y) by (apply (cb_cover _ _ C); eauto).
      destruct Hxc as [a Ha], Hyc as [b Hb]. assert (a = i) by (apply (rb_disj _ B2 _ _ x); auto). assert (b = i) by (apply (rb_disj _ B2 _ _ y); auto). subst a b.
      destruct (cb_origin _ _ C i) as [z Hz]; [destruct Ha as (p & Ha & _); eapply nth_error_lt; eauto|].
      apply Hjk. transitivity z; [apply (Pd _ _ x)|apply (Pd _ _ y)]; auto.
    - intros k x y Hx Hy Hq j Hj. assert (Hxc: exists j', at_ (cm_parts c) j' x) by (apply (cb_cover _ _ C); eauto). destruct Hxc as [a Ha].
      assert (a = j) by (apply (rb_disj _ B2 _ _ x); auto). subst a. apply M2, M1. apply (cb_together _ _ C k x y); auto.
    - intros Hne. apply Z2. apply Z1. apply (cb_nonempty _ _ C). auto.
  Qed.
End Combine.

Lemma disj_all_spec : forall p l, ssorted p -> (forall r, In r l -> ssorted r) -> (forall r x, In r l -> In x p -> ~ In x r) -> disj_all p l = Some true.
Proof.
  induction l as [|r l IH]; intros Sp Sl D; cbn; auto. rewrite disj_true; auto; [|apply Sl; cbn; auto|intros x Hx; apply D; cbn; auto]. cbn. apply IH; auto.
  - intros r' H. apply Sl. cbn. auto.
  - intros r' x H. apply D. cbn. auto.
Qed.
Definition at_part (l : list (list nat)) (j x : nat) : Prop := exists p, nth_error l j = Some p /\ In x p.
Lemma pairwise_disj_spec : forall l, (forall j p, nth_error l j = Some p -> ssorted p) -> (forall j k x, at_part l j x -> at_part l k x -> j = k) -> pairwise_disj l = Some true.
Proof.
  induction l as [|p l IH]; intros S D; cbn; auto. rewrite disj_all_spec; cbn [obind].
  - apply IH; [intros j; apply (S (Datatypes.S j))|]. intros j k x H1 H2. assert (Datatypes.S j = Datatypes.S k); [|lia]. apply (D _ _ x); auto.
  - apply (S 0). auto.
  - intros r H. apply In_nth_error in H. destruct H as [j H]. apply (S (Datatypes.S j)). auto.
  - intros r x H H1 H2. apply In_nth_error in H. destruct H as [j H]. assert (0 = Datatypes.S j); [|lia]. apply (D _ _ x); [exists p|exists r]; auto.
Qed.
(** Disjoint duplicate-free parts. *)
Lemma concat_nodup : forall l, NoDup (concat l) <-> (forall p, In p l -> NoDup p) /\ (forall j k x, at_part l j x -> at_part l k x -> j = k).
Proof.
  induction l as [|p l IH]; cbn.
  - split; [|constructor]. intros _. split; [intros p []|]. intros [|j] k x (p & H & _); discriminate.
  - split.
    + intros H. apply NoDup_app_parts in H. destruct H as (H1 & H2 & H3). apply IH in H2. destruct H2 as [H2 H4]. split.
      * intros r [<-|Hr]; auto.
      * assert (H5: forall j x, In x p -> ~ at_part l j x). { intros j x Hx (r & Hr & Hx'). apply (H3 x Hx). apply in_concat. exists r. split; auto. eapply nth_error_In; eauto. }
        intros [|j] [|k] x (r & Hr & Hx) (r' & Hr' & Hx'); cbn in Hr, Hr'; auto.
        -- injection Hr as <-. exfalso. apply (H5 k x Hx). exists r'. auto.
        -- injection Hr' as <-. exfalso. apply (H5 j x Hx'). exists r. auto.
        -- f_equal. apply (H4 j k x); [exists r|exists r']; auto.
    + intros [H1 H2]. apply NoDup_app_intro.
      * apply H1. auto.
      * apply IH. split; [auto|]. intros j k x (r & Hr & Hx) (r' & Hr' & Hx'). assert (S j = S k); [|lia]. apply (H2 _ _ x); [exists r|exists r']; auto.
      * intros x Hx H. apply in_concat in H. destruct H as (r & Hr & Hx'). apply In_nth_error in Hr. destruct Hr as [j Hr].
        assert (0 = S j); [|lia]. apply (H2 _ _ x); [exists p|exists r]; auto.
Qed.
Lemma at_part_concat : forall l x, (exists j, at_part l j x) <-> In x (concat l).
Proof.
  intros l x. rewrite in_concat. split.
  - intros (j & p & H1 & H2). exists p. split; auto. eapply nth_error_In; eauto.
  - intros (p & H1 & H2). apply In_nth_error in H1. destruct H1 as [j H1]. exists j, p. auto.
Qed.

(** *** Whole refinements *)
Definition ref_ok (r : refinement) : Prop :=
  (forall p, In p (rf_parts r) -> ssorted p /\ p <> []) /\ NoDup (concat (rf_parts r)) /\ 2 <= length (rf_parts r).
Definition separated (l : list (list nat)) (x y : nat) : Prop := exists j k, j <> k /\ at_part l j x /\ at_part l k y.
Lemma ref_ok_disj : forall r, ref_ok r -> forall j k x, at_part (rf_parts r) j x -> at_part (rf_parts r) k x -> j = k.
Proof. intros r (_ & N & _). apply concat_nodup in N. tauto. Qed.
Lemma is_sorted_ss : forall l, ssorted l -> is_sorted Nat.ltb l = true.
Proof. intros l H. apply is_sorted_spec. apply ssorted_le; auto. Qed.
Theorem combine_spec : forall r s, ref_ok r -> ref_ok s -> length (rf_parts s) = 2 -> rf_id r = rf_id s ->
  exists t, ref_combine r s = Some t /\ ref_ok t /\ rf_id t = rf_id r /\
    (forall x, In x (concat (rf_parts t)) <-> In x (concat (rf_parts r)) \/ In x (concat (rf_parts s))) /\
    (forall x y, separated (rf_parts r) x y \/ separated (rf_parts s) x y -> separated (rf_parts t) x y) /\
    (forall k x y, at_part (rf_parts r) k x -> at_part (rf_parts r) k y ->
      (forall o, at_part (rf_parts s) o x <-> at_part (rf_parts s) o y) -> forall j, at_part (rf_parts t) j x -> at_part (rf_parts t) j y).
Proof.
  intros r s R S L Eid. pose proof (ref_ok_disj r R) as Dr. pose proof (ref_ok_disj s S) as Ds. unfold ref_combine. rewrite Eid, Nat.eqb_refl. cbn [negb].
  destruct (is_nil (rf_parts r)) eqn:En; [apply is_nil_iff in En; destruct R as (_ & _ & R); rewrite En in R; cbn in R; lia|].
  replace (Nat.ltb (length (rf_parts r)) 2) with false by (symmetry; apply Nat.ltb_ge; apply R).
  destruct (rf_parts s) as [|q0 [|q1 [|]]] eqn:Es; cbn in L; try discriminate.
  destruct S as (Sp & Sn & _). rewrite Es in Sp, Sn.
  assert (H0: ssorted q0 /\ q0 <> []) by (apply Sp; cbn; auto). assert (H1: ssorted q1 /\ q1 <> []) by (apply Sp; cbn; auto).
  assert (En0: is_nil q0 = false) by (destruct q0; [tauto|auto]). assert (En1: is_nil q1 = false) by (destruct q1; [tauto|auto]).
  rewrite En0, En1, !is_sorted_ss; try tauto. cbn [negb orb].
  assert (Qs: forall o, ssorted (get2 o (q0, q1))) by (intros [|]; cbn; tauto).
  assert (Qd: forall x, In x (fst (q0, q1)) -> ~ In x (snd (q0, q1))).
  { cbn. intros x Hx Hy. assert (0 = 1); [|discriminate]. apply (Ds _ _ x); [exists q0|exists q1]; auto. }
  assert (Ps: forall j p, nth_error (rf_parts r) j = Some p -> ssorted p) by (intros j p H; apply R; eapply nth_error_In; eauto).
  destruct (combine_core (q0, q1) (rf_parts r) Qs Qd Ps Dr) as (c & ps & E1 & E2 & B & Ln & V & X1 & X2 & X3).
  rewrite E1. cbn [obind]. rewrite E2. cbn [obind]. rewrite pairwise_disj_spec; [|apply B|apply (rb_disj _ _ B)]. cbn [obind].
  exists (mk_ref ps (rf_id s)). cbn [rf_parts rf_id]. ands; auto.
  - split; [|split].
    + cbn. intros p Hp. split; [apply In_nth_error in Hp; destruct Hp as [j Hp]; apply (rb_sorted _ _ B j); auto|]. apply X3; auto. intros p' H. apply R; auto.
    + cbn. apply concat_nodup. split; [|apply (rb_disj _ _ B)]. intros p Hp. apply ssorted_NoDup. apply In_nth_error in Hp. destruct Hp as [j Hp]. apply (rb_sorted _ _ B j); auto.
    + cbn. destruct R as (_ & _ & R). lia.
  - intros x. rewrite <- (at_part_concat ps), <- (at_part_concat (rf_parts r)). unfold at_part. rewrite V. cbn [fst snd concat]. rewrite !in_app_iff. cbn. tauto.
  - intros x y H.
    assert (Hx: exists j, at_part ps j x).
    { apply V. destruct H as [(j & k & _ & H & _)|(j & k & _ & H & _)]; [left; eauto|]. right. destruct H as (p & H & Hx). destruct j as [|[|[|]]]; cbn in H; try discriminate; injection H as <-; cbn; auto. }
    assert (Hy: exists j, at_part ps j y).
    { apply V. destruct H as [(j & k & _ & _ & H)|(j & k & _ & _ & H)]; [left; eauto|]. right. destruct H as (p & H & Hy). destruct k as [|[|[|]]]; cbn in H; try discriminate; injection H as <-; cbn; auto. }
    destruct Hx as [a Ha], Hy as [b Hb]. exists a, b. ands; auto. intros <-. destruct H as [(j & k & Hjk & H2 & H3)|(j & k & Hjk & H2 & H3)].
    + apply (X1 j k x y H2 H3 Hjk a); auto.
    + destruct Ha as (p & Ha & Hxp), Hb as (p' & Hb & Hyp). assert (p' = p) by congruence. subst p'. apply (rb_ok _ _ B a p Ha).
      destruct H2 as (p2 & H2 & Hx2), H3 as (p3 & H3 & Hy3).
      destruct j as [|[|[|]]], k as [|[|[|]]]; cbn in H2, H3; try discriminate; try congruence; injection H2 as <-; injection H3 as <-; split.
      * exists x. auto. * exists y. auto. * exists y. auto. * exists x. auto.
  - intros k x y Hx Hy Ho j Hj. apply (X2 k x y); auto. intros o. specialize (Ho (if o then 1 else 0)). unfold at_part in Ho. destruct o; cbn in Ho |- *.
    + split; intros H; [destruct (proj1 Ho) as (p & E & Hp)|destruct (proj2 Ho) as (p & E & Hp)]; eauto; congruence.
    + split; intros H; [destruct (proj1 Ho) as (p & E & Hp)|destruct (proj2 Ho) as (p & E & Hp)]; eauto; congruence.
Qed.
(** The constructor. *)
Lemma ref_two_spec : forall a b id, a <> [] -> b <> [] -> NoDup (a ++ b) -> exists r, ref_two a b id = Some r /\ ref_ok r /\ rf_id r = id /\
  length (rf_parts r) = 2 /\ (forall x y, In x a -> In y b -> separated (rf_parts r) x y) /\ (forall x, In x (concat (rf_parts r)) <-> In x a \/ In x b).
Proof.
  intros a b id Ha Hb N. apply NoDup_app_parts in N. destruct N as (Na & Nb & D).
  pose proof (sort_nat_ssorted a Na) as Sa. pose proof (sort_nat_ssorted b Nb) as Sb.
  assert (Hz: forall l, l <> [] -> sort_nat l <> []). { intros l H E. apply H. apply Permutation_nil. rewrite <- E. apply sort_nat_perm. }
  unfold ref_two. replace (is_nil a) with false by (destruct a; cbn; congruence). replace (is_nil b) with false by (destruct b; cbn; congruence). cbn [orb].
  rewrite disj_true; auto; [|intros x; rewrite !sort_nat_In; auto]. cbn [obind]. eexists. split; [reflexivity|]. ands; auto.
  - split; [|split]; cbn; auto.
    + intros p [<-|[<-|[]]]; auto.
    + rewrite app_nil_r. apply NoDup_app_intro; auto using ssorted_NoDup. intros x. rewrite !sort_nat_In. auto.
  - intros x y Hx Hy. exists 0, 1. cbn. ands; [lia|exists (sort_nat a)|exists (sort_nat b)]; rewrite sort_nat_In; auto.
  - intros x. cbn. rewrite app_nil_r, in_app_iff, !sort_nat_In. tauto.
Qed.

(** *** HeaderRefinement *)
Definition header_run (rs : list refinement) : option (list refinement) := ofold header_combine rs [].
Record HB (rs h : list refinement) : Prop := mk_HB {
  hb_ids : NoDup (map rf_id h);
  hb_ok : forall t, In t h -> ref_ok t;
  hb_sep : forall r x y, In r rs -> separated (rf_parts r) x y -> exists t, In t h /\ rf_id t = rf_id r /\ separated (rf_parts t) x y;
  hb_from : forall t x, In t h -> In x (concat (rf_parts t)) -> exists r, In r rs /\ rf_id r = rf_id t /\ In x (concat (rf_parts r))
}.
Lemma header_combine_spec : forall h r, (forall t, In t h -> ref_ok t) -> NoDup (map rf_id h) -> ref_ok r -> length (rf_parts r) = 2 ->
  exists h', header_combine h r = Some h' /\ (forall t, In t h' -> ref_ok t) /\
    (forall i, In i (map rf_id h') <-> In i (map rf_id h) \/ i = rf_id r) /\ NoDup (map rf_id h') /\
    (forall t x y, In t (r :: h) -> separated (rf_parts t) x y -> exists t', In t' h' /\ rf_id t' = rf_id t /\ separated (rf_parts t') x y) /\
    (forall t' x, In t' h' -> In x (concat (rf_parts t')) -> exists t, In t (r :: h) /\ rf_id t = rf_id t' /\ In x (concat (rf_parts t))).
Proof.
  induction h as [|s h IH]; intros r Hok Hnd R L.
  - exists [r]. cbn. ands; auto.
    + intros t [<-|[]]; auto.
    + intros i. intuition.
    + constructor; [intros []|constructor].
    + intros t x y [<-|[]] H. eauto.
    + intros t x [<-|[]] H. eauto.
  - cbn [header_combine]. destruct (Nat.eqb_spec (rf_id s) (rf_id r)) as [E|E].
    + destruct (combine_spec s r) as (t & Et & T1 & T2 & T3 & T4 & _); auto; [apply Hok; cbn; auto|]. rewrite Et. cbn [obind]. exists (t :: h). ands; auto.
      * intros u [<-|Hu]; auto. apply Hok. cbn. auto.
      * intros i. cbn. rewrite T2. split; [intros [H|H]|intros [[H|H]|H]]; auto. left. congruence.
      * cbn. rewrite T2. auto.
      * intros u x y [<-|[<-|Hu]] H.
        -- exists t. ands; cbn; auto. congruence.
        -- exists t. ands; cbn; auto.
        -- exists u. ands; cbn; auto.
      * intros u x [<-|Hu] H.
        -- apply T3 in H. destruct H as [H|H]; [exists s|exists r]; ands; cbn; auto. congruence.
        -- exists u. ands; cbn; auto.
    + inversion Hnd; subst. destruct (IH r) as (h' & E' & T1 & T2 & T3 & T4 & T5); auto; [intros t Ht; apply Hok; cbn; auto|]. rewrite E'. cbn [obind]. exists (s :: h'). ands; auto.
      * intros u [<-|Hu]; auto. apply Hok. cbn. auto.
      * intros i. cbn. rewrite T2. tauto.
      * cbn. constructor; auto. rewrite T2. intros [H|H]; auto.
      * intros u x y Hu H. destruct Hu as [<-|[<-|Hu]].
        -- destruct (T4 r x y) as (t' & A1 & A2 & A3); cbn; auto. exists t'. ands; cbn; auto.
        -- exists s. ands; cbn; auto.
        -- destruct (T4 u x y) as (t' & A1 & A2 & A3); cbn; auto. exists t'. ands; cbn; auto.
      * intros u x [<-|Hu] H.
        -- exists s. ands; cbn; auto.
        -- destruct (T5 u x Hu H) as (t & [<-|A1] & A2 & A3); [exists r|exists t]; ands; cbn; auto.
Qed.
Lemma header_run_spec : forall rs, (forall r, In r rs -> ref_ok r /\ length (rf_parts r) = 2) -> exists h, header_run rs = Some h /\ HB rs h.
Proof.
  intros rs. unfold header_run.
  assert (H: forall l pre h, HB pre h -> (forall r, In r l -> ref_ok r /\ length (rf_parts r) = 2) -> exists h', ofold header_combine l h = Some h' /\ HB (pre ++ l) h').
  { induction l as [|r l IH]; intros pre h B Hl; cbn [ofold]; [exists h; rewrite app_nil_r; auto|].
    destruct (header_combine_spec h r) as (h1 & E & T1 & T2 & T3 & T4 & T5); [apply B|apply B|apply Hl; cbn; auto|apply Hl; cbn; auto|]. rewrite E. cbn [obind].
    destruct (IH (pre ++ [r]) h1) as (h2 & E2 & B2).
    - split; auto.
      + intros u x y Hu H. apply in_app_iff in Hu. destruct Hu as [Hu|[<-|[]]].
        * destruct (hb_sep _ _ B u x y Hu H) as (t & A1 & A2 & A3). destruct (T4 t x y) as (t' & C1 & C2 & C3); cbn; auto. exists t'. ands; auto. congruence.
        * apply T4; cbn; auto.
      + intros t x Ht H. destruct (T5 t x Ht H) as (u & [<-|A1] & A2 & A3).
        * exists r. ands; auto. apply in_or_app. cbn. auto.
        * destruct (hb_from _ _ B u x A1 A3) as (v & C1 & C2 & C3). exists v. ands; auto; [apply in_or_app; auto|congruence].
    - intros u Hu. apply Hl. cbn. auto.
    - exists h2. split; auto. rewrite <- app_assoc in B2. auto. }
  intros Hl. apply (H rs [] []); auto. split; cbn; try tauto; constructor.
Qed.

(** *** Refining a mapping *)
Lemma refine_all : forall m r, RI m -> ref_fits m r -> exists m', rm_refine m r = Some m' /\ RI m' /\ rm_size m <= rm_size m' /\
  (forall x y, rm_exists m x <> rm_exists m y -> rm_exists m' x <> rm_exists m' y) /\
  (forall x y, separated (rf_parts r) x y -> rm_exists m' x <> rm_exists m' y) /\
  (forall j x y, at_part (rf_parts r) j x -> at_part (rf_parts r) j y -> rm_exists m' x = rm_exists m' y) /\
  (forall x, ~ In x (concat (rf_parts r)) -> rm_exists m' x = rm_exists m x) /\
  (forall x, (exists a, rm_exists m' x = Some a) <-> (exists a, rm_exists m x = Some a)) /\
  (forall x a, rm_exists m' x = Some a -> rm_exists m x = Some a \/ (rm_exists m x = Some (rf_id r) /\ rm_size m <= a)) /\
  ((forall a, a < rm_size m -> exists x, rm_exists m x = Some a) -> forall a, a < rm_size m' -> exists x, rm_exists m' x = Some a).
Proof.
  intros m r R F. destruct (le_lt_dec (length (rf_parts r)) 1) as [L|L].
  - exists m. unfold rm_refine. replace (Nat.leb (length (rf_parts r)) 1) with true by (symmetry; apply Nat.leb_le; auto). ands; auto; try tauto.
    + intros x y (j & k & Hjk & (p & H1 & _) & (p' & H2 & _)). apply nth_error_lt in H1, H2. lia.
    + intros j x y (p & H1 & Hx) (p' & H2 & Hy). destruct F as (_ & _ & F). rewrite !F; auto; apply in_concat; eauto using nth_error_In.
  - destruct (refine_spec m r R F L) as (m' & c & E & R' & S & X1 & X2 & X3 & X4 & X5). exists m'.
    pose proof F as (Nd & Hne & Hcl).
    assert (Hex: forall x, In x (concat (rf_parts r)) \/ ~ In x (concat (rf_parts r))) by (intros x; destruct (in_dec Nat.eq_dec x (concat (rf_parts r))); auto).
    assert (Hlt: forall x a, rm_exists m x = Some a -> a < rm_size m).
    { intros x a H. apply rm_exists_iff in H; [|apply ri_keys; auto]. destruct H as (k & _ & H). apply (ri_lt m R k); auto. }
    assert (Hin: forall x, In x (concat (rf_parts r)) -> exists j, j < length (rf_parts r) /\ at_part (rf_parts r) j x /\ rm_exists m' x = Some (c j) /\ (c j = rf_id r \/ rm_size m <= c j)).
    { intros x H. apply at_part_concat in H. destruct H as (j & p & H1 & H2). pose proof (nth_error_lt _ _ _ _ H1) as Lj. exists j. ands; auto; [exists p; auto|eapply X1; eauto|].
      specialize (X2 j Lj). destruct (Nat.eqb j (max_part (rf_parts r))); [auto|lia]. }
    ands; auto.
    + intros x y H. destruct (Hex x) as [Hx|Hx], (Hex y) as [Hy|Hy].
      * rewrite (Hcl x), (Hcl y) in H; auto.
      * rewrite (X5 y); auto. destruct (Hin x Hx) as (j & _ & _ & -> & [Hc|Hc]).
        -- rewrite Hc. rewrite Hcl in H; auto.
        -- intros H'. symmetry in H'. apply Hlt in H'. lia.
      * rewrite (X5 x); auto. destruct (Hin y Hy) as (j & _ & _ & -> & [Hc|Hc]).
        -- rewrite Hc. rewrite (Hcl y) in H; auto.
        -- intros H'. apply Hlt in H'. lia.
      * rewrite !X5; auto.
    + intros x y (j & k & Hjk & (p & H1 & Hx) & (p' & H2 & Hy)). rewrite (X1 j p x), (X1 k p' y); auto. intros H. apply Hjk. apply X3; try congruence; eapply nth_error_lt; eauto.
    + intros j x y (p & H1 & Hx) (p' & H2 & Hy). rewrite (X1 j p x), (X1 j p' y); auto.
    + intros x. destruct (Hex x) as [Hx|Hx]; [|rewrite X5; auto; tauto]. destruct (Hin x Hx) as (j & _ & _ & -> & _). rewrite Hcl; auto. split; eauto.
    + intros x a H. destruct (Hex x) as [Hx|Hx]; [|rewrite X5 in H; auto]. destruct (Hin x Hx) as (j & _ & _ & Hj & Hc). rewrite Hcl; auto. rewrite Hj in H. injection H as <-.
      destruct Hc as [->|Hc]; auto.
    + intros Hall a Ha.
      assert (Hpart: forall j, j < length (rf_parts r) -> exists x, rm_exists m' x = Some (c j)).
      { intros j Hj. destruct (nth_error_ex _ _ _ Hj) as [[|x p] Ep]; [exfalso; apply (Hne []); auto; eapply nth_error_In; eauto|]. exists x. apply (X1 j (x :: p)); cbn; auto. }
      destruct (le_lt_dec (rm_size m) a) as [La|La]; [destruct (X4 a) as (j & Hj & <-); auto; lia|].
      destruct (Nat.eq_dec a (rf_id r)) as [->|Na].
      * assert (Hm: max_part (rf_parts r) < length (rf_parts r)) by (apply max_part_lt; intros H; rewrite H in L; cbn in L; lia).
        specialize (X2 _ Hm). rewrite Nat.eqb_refl in X2. rewrite <- X2. auto.
      * destruct (Hall a La) as [x Hx]. exists x. rewrite X5; auto. intros H. apply Hcl in H. congruence.
Qed.
