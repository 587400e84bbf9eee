(** make_pair_refinement and make_simple_pair_refinement. *)
From Coq Require Import List Arith Lia Bool Permutation Sorted.
From Verif Require Import Base BaseFacts SpecFacts PdaModel PdaProof NfaModel NfaProof RegexProof ConstructProof NfaQueryModel NfaQueryProof ContainersModel ContainersProof
  TrieModel RefineModel MappingProof RefineProof.
Import ListNotations.

(** *** Sorting of pairs, removal of duplicates *)
Definition ple (p q : nat * nat) : Prop := pair_ltb q p = false.
Lemma pair_ltb_lt : forall p q, pair_ltb p q = true <-> fst p < fst q \/ (fst p = fst q /\ snd p < snd q).
Proof.
  intros p q. unfold pair_ltb. rewrite orb_true_iff, andb_true_iff, !Nat.ltb_lt, Nat.eqb_eq. tauto.
Qed.
Lemma ple_iff : forall p q, ple p q <-> fst p < fst q \/ (fst p = fst q /\ snd p <= snd q).
Proof.
  intros p q. unfold ple. rewrite <- not_true_iff_false, pair_ltb_lt. lia.
Qed.
Lemma ins_pair_perm : forall x l, Permutation (ins_pair x l) (x :: l).
Proof.
  induction l as [|y l IH]; cbn; auto. destruct (pair_ltb y x); auto. eapply perm_trans; [apply perm_skip; apply IH|]. apply perm_swap.
Qed.
Lemma sort_pairs_perm : forall l, Permutation (sort_pairs l) l.
Proof. induction l as [|x l IH]; cbn; auto. eapply perm_trans; [apply ins_pair_perm|]. auto. Qed.
Lemma sort_pairs_In : forall l x, In x (sort_pairs l) <-> In x l.
Proof. intros. split; apply Permutation_in; [|apply Permutation_sym]; apply sort_pairs_perm. Qed.
Lemma ins_pair_sorted : forall x l, StronglySorted ple l -> StronglySorted ple (ins_pair x l).
Proof.
  induction l as [|y l IH]; intros H; cbn; [repeat constructor|]. inversion H; subst. rewrite Forall_forall in H3. destruct (pair_ltb y x) eqn:E.
  - constructor; auto. apply Forall_forall. intros z Hz. apply (Permutation_in _ (ins_pair_perm x l)) in Hz. apply pair_ltb_lt in E.
    destruct Hz as [<-|Hz]; [|auto]. apply ple_iff. lia.
  - constructor; auto. apply Forall_forall. intros z [<-|Hz]; [exact E|]. apply H3 in Hz. change (ple x y) in E. rewrite ple_iff in *. lia.
Qed.
Lemma sort_pairs_sorted : forall l, StronglySorted ple (sort_pairs l).
Proof. induction l as [|x l IH]; cbn; [constructor|]. apply ins_pair_sorted; auto. Qed.
Lemma pairs_sorted_true : forall l, StronglySorted ple l -> pairs_sorted l = true.
Proof.
  induction 1 as [|x l S IH F]; auto. destruct l as [|y l]; auto. change (negb (pair_ltb y x) && pairs_sorted (y :: l) = true).
  inversion F; subst. unfold ple in H1. rewrite H1, IH. auto.
Qed.
Lemma uniq_spec : forall l prev, StronglySorted le l -> (forall y, prev = Some y -> forall x, In x l -> y <= x) ->
  ssorted (uniq prev l) /\ (forall x, In x (uniq prev l) <-> In x l /\ prev <> Some x).
Proof.
  induction l as [|x l IH]; intros prev S Hp; cbn [uniq]; [split; [constructor|cbn; tauto]|]. inversion S; subst. rewrite Forall_forall in H2.
  destruct (match prev with Some y => Nat.eqb y x | None => false end) eqn:E.
  - destruct prev as [y|]; [|discriminate]. apply Nat.eqb_eq in E. subst y. destruct (IH (Some x)) as [I1 I2]; auto.
    + intros y Hy z Hz. apply (Hp y); cbn; auto.
    + split; auto. intros z. rewrite I2. cbn. split; [tauto|]. intros [[->|H] H']; [congruence|auto].
  - destruct (IH (Some x)) as [I1 I2]; auto.
    + intros y Hy z Hz. injection Hy as <-. auto.
    + split.
      * constructor; auto. apply Forall_forall. intros z Hz. apply I2 in Hz. destruct Hz as [Hz Hn]. apply H2 in Hz. assert (x <> z) by congruence. lia.
      * intros z. cbn. rewrite I2. split.
        -- intros [->|[H H']]; [split; auto; intros ->; rewrite Nat.eqb_refl in E; discriminate|]. split; auto. intros ->. specialize (Hp z eq_refl x (or_introl eq_refl)). apply H2 in H. apply H'. f_equal. lia.
        -- intros [[->|H] H']; auto. destruct (Nat.eq_dec x z) as [->|Nz]; auto. right. split; auto. congruence.
Qed.
Lemma uniq_None : forall l, StronglySorted le l -> ssorted (uniq None l) /\ (forall x, In x (uniq None l) <-> In x l).
Proof. intros l S. destruct (uniq_spec l None S) as [H1 H2]; [discriminate|]. split; auto. intros x. rewrite H2. intuition discriminate. Qed.
Lemma fst_sorted : forall l, StronglySorted ple l -> StronglySorted le (map fst l).
Proof.
  induction 1 as [|x l S IH F]; cbn; constructor; auto. rewrite Forall_forall in *. intros y Hy. apply in_map_iff in Hy. destruct Hy as (p & <- & Hp).
  apply F in Hp. apply ple_iff in Hp. lia.
Qed.
Lemma filter_ple : forall f l, StronglySorted ple l -> StronglySorted ple (filter f l).
Proof.
  induction 1 as [|x l S IH F]; cbn; [constructor|]. destruct (f x); auto. constructor; auto. rewrite Forall_forall in *. intros y Hy. apply filter_In in Hy. apply F. tauto.
Qed.
Lemma snd_sorted : forall l a, StronglySorted ple l -> (forall p, In p l -> fst p = a) -> StronglySorted le (map snd l).
Proof.
  induction 1 as [|x l S IH F]; intros H; cbn; constructor; auto; [apply IH; intros; apply H; cbn; auto|]. rewrite Forall_forall in *. intros y Hy. apply in_map_iff in Hy.
  destruct Hy as (p & <- & Hp). pose proof (H p (or_intror Hp)). pose proof (H x (or_introl eq_refl)). apply F in Hp. apply ple_iff in Hp. lia.
Qed.
Lemma BmatchA_spec : forall X a, StronglySorted ple X -> exists l, BmatchA X a = Some l /\ ssorted l /\ forall b, In b l <-> In (a, b) X.
Proof.
  intros X a S. unfold BmatchA. rewrite pairs_sorted_true; auto. eexists. split; [reflexivity|].
  destruct (uniq_None (map snd (filter (fun e => Nat.eqb (fst e) a) X))) as [H1 H2].
  - apply (snd_sorted _ a); [apply filter_ple; auto|]. intros p Hp. apply filter_In in Hp. apply Nat.eqb_eq. tauto.
  - split; auto. intros b. rewrite H2, in_map_iff. split.
    + intros ([a' b'] & <- & Hp). apply filter_In in Hp. cbn in *. destruct Hp as [Hp E]. apply Nat.eqb_eq in E. subst. auto.
    + intros H. exists (a, b). split; auto. apply filter_In. split; auto. apply Nat.eqb_refl.
Qed.
Lemma ssorted_nth_lt : forall l i j x y, ssorted l -> nth_error l i = Some x -> nth_error l j = Some y -> x < y -> i < j.
Proof.
  intros l i j x y S Hi Hj L. destruct (lt_dec i j) as [|N]; auto. exfalso. destruct (Nat.eq_dec i j) as [->|N']; [assert (x = y) by congruence; lia|].
  assert (y <= x); [|lia]. apply (le_nth l (ssorted_le l S) j i); auto. lia.
Qed.
Lemma ab_loop_spec : forall bm set lb, ssorted (map fst bm) -> ssorted set ->
  (forall a, In a set -> exists j, lb <= j /\ nth_error (map fst bm) j = Some a) ->
  exists r, ab_loop bm set lb = Some r /\ forall k, In k r <-> exists a, In a set /\ In (a, k) bm.
Proof.
  intros bm set. induction set as [|a set IH]; intros lb Sb Ss H.
  - exists []. split; auto. intros k. split; [intros []|]. intros (a & [] & _).
  - cbn [ab_loop]. destruct (H a (or_introl eq_refl)) as (j & Lj & Ej). pose proof (nth_error_lt _ _ _ _ Ej) as Lj'. rewrite map_length in Lj'.
    destruct (lb_loop_spec _ (fun e : nat * nat => Nat.ltb (fst e) a) bm (length bm - lb) lb (length bm - lb)) as (r & R1 & R2 & R3 & R4); try lia.
    { intros u v x y Hu Huv Hx Hy Hp. apply Nat.ltb_lt in Hp. apply Nat.ltb_lt. destruct (Nat.eq_dec u v) as [->|Nuv]; [assert (x = y) by congruence; subst; auto|].
      assert (fst x <= fst y); [|lia]. apply (le_nth _ (ssorted_le _ Sb) u v); [lia| |]; rewrite nth_error_map; [rewrite Hx|rewrite Hy]; auto. }
    unfold lower_bound_from. rewrite R1. cbn [obind].
    assert (Er: r = j).
    { rewrite nth_error_map in Ej. destruct (nth_error bm j) as [e|] eqn:Ee; [|discriminate]. cbn in Ej. injection Ej as Ej.
      destruct (lt_eq_lt_dec r j) as [[L|L]|L]; auto; exfalso.
      - destruct (nth_error_ex _ bm r) as [e' Ee']; [lia|]. pose proof (R4 r e') as R4'.
        assert (Nat.ltb (fst e') a = false) by (apply R4'; auto; lia). apply Nat.ltb_ge in H0.
        assert (r < r); [|lia]. assert (Hle: fst e' < fst e \/ fst e' = fst e).
        { assert (fst e' <= fst e); [|lia]. apply (le_nth _ (ssorted_le _ Sb) r j); auto; rewrite nth_error_map; [rewrite Ee'|rewrite Ee]; auto. }
        assert (fst e' = fst e) by lia. assert (r = j); [|lia].
        apply (proj1 (NoDup_nth_error _) (ssorted_NoDup _ Sb)); [rewrite map_length; lia|]. rewrite !nth_error_map, Ee', Ee. cbn. congruence.
      - assert (Nat.ltb (fst e) a = true) by (apply (R3 j); auto; lia). apply Nat.ltb_lt in H0. lia. }
    subst r. rewrite nth_error_map in Ej. destruct (nth_error bm j) as [[a' k0]|] eqn:Ee; [|discriminate]. cbn in Ej. injection Ej as ->. cbn [obind fst snd]. rewrite Nat.eqb_refl.
    inversion Ss; subst. rewrite Forall_forall in H3.
    destruct (IH (S j)) as (r' & E' & Hr'); auto.
    { intros a' Ha'. destruct (H a' (or_intror Ha')) as (j' & _ & Ej'). exists j'. split; auto. apply (ssorted_nth_lt (map fst bm) j j' a a'); auto.
      rewrite nth_error_map, Ee. auto. }
    rewrite E'. cbn [obind]. exists (k0 :: r'). split; auto. intros k. cbn. rewrite Hr'. split.
    + intros [<-|(a' & H1 & H4)]; [exists a|exists a']; split; auto. eapply nth_error_In; eauto.
    + intros (a' & [<-|H1] & H4); [left|right; eauto].
      apply In_nth_error in H4. destruct H4 as [j' H4]. assert (j' = j).
      { apply (proj1 (NoDup_nth_error _) (ssorted_NoDup _ Sb)); [rewrite map_length; eapply nth_error_lt; eauto|]. rewrite !nth_error_map, H4, Ee. auto. }
      subst. congruence.
Qed.
Lemma AmatchB_spec : forall X b bm, StronglySorted ple X -> ssorted (map fst bm) -> (forall p, In p X -> In (fst p) (map fst bm)) ->
  exists l, AmatchB_bucket X b bm = Some l /\ ssorted l /\ forall k, In k l <-> exists a, In (a, b) X /\ In (a, k) bm.
Proof.
  intros X b bm S Sb Hk. unfold AmatchB_bucket. rewrite pairs_sorted_true, is_sorted_ss; auto. cbn [andb].
  destruct (uniq_None (map fst (filter (fun e => Nat.eqb (snd e) b) X))) as [H1 H2]; [apply fst_sorted, filter_ple; auto|].
  assert (H3: forall a, In a (uniq None (map fst (filter (fun e => Nat.eqb (snd e) b) X))) <-> In (a, b) X).
  { intros a. rewrite H2, in_map_iff. split.
    - intros ([a' b'] & <- & Hp). apply filter_In in Hp. cbn in *. destruct Hp as [Hp E]. apply Nat.eqb_eq in E. subst. auto.
    - intros H. exists (a, b). split; auto. apply filter_In. split; auto. apply Nat.eqb_refl. }
  destruct (ab_loop_spec bm (uniq None (map fst (filter (fun e => Nat.eqb (snd e) b) X))) 0 Sb H1) as (r & E & Hr).
  - intros a Ha. apply H3 in Ha. apply Hk in Ha. apply In_nth_error in Ha. destruct Ha as [j Hj]. exists j. split; auto. lia.
  - rewrite E. cbn [obind]. eexists. split; [reflexivity|]. split; [apply sort_set_ssorted|]. intros k. rewrite sort_set_In, Hr. split; intros (a & A1 & A2); exists a; split; auto; apply H3; auto.
Qed.

(** *** Buckets *)
Section Buckets.
  Variables (fX fY : nat -> list nat).
  Definition binv (p x y : list nat) : Prop :=
    ssorted x /\ ssorted y /\ (forall u, In u x <-> exists e, In e p /\ In u (fX e)) /\ (forall u, In u y <-> exists e, In e p /\ In u (fY e)) /\
    (forall u, In u x -> ~ In u y).
  Inductive BI : list (list nat) -> list (list nat) -> list (list nat) -> Prop :=
  | BI_nil : BI [] [] []
  | BI_cons : forall p x y ps xs ys, binv p x y -> BI ps xs ys -> BI (p :: ps) (x :: xs) (y :: ys).
  Definition elem_ok (e : nat) : Prop := ssorted (fX e) /\ ssorted (fY e) /\ forall u, In u (fX e) -> ~ In u (fY e).
  Lemma BI_sep : forall ps xs ys, BI ps xs ys -> forall j a a' u, at_part ps j a -> at_part ps j a' -> In u (fX a) -> In u (fY a') -> False.
  Proof.
    induction 1 as [|p x y ps xs ys B H IH]; intros j a a' u (q & H1 & Ha) (q' & H2 & Ha') Hx Hy; [destruct j; discriminate|].
    destruct j as [|j]; cbn in H1, H2.
    - injection H1 as <-. injection H2 as <-. destruct B as (_ & _ & B1 & B2 & B3). apply (B3 u); [apply B1|apply B2]; eauto.
    - apply (IH j a a' u); auto; [exists q|exists q']; auto.
  Qed.
  Lemma assign_spec : forall ps xs ys e, BI ps xs ys -> elem_ok e -> exists ps' xs' ys' k,
    assign_to_bucket ps xs ys (fX e) (fY e) e = Some (ps', xs', ys', k) /\ BI ps' xs' ys' /\
    (forall j a, at_part ps' j a <-> at_part ps j a \/ (j = k /\ a = e)) /\ Permutation (concat ps') (concat ps ++ [e]) /\
    ((forall p, In p ps -> p <> []) \/ ps = [[]] -> forall p, In p ps' -> p <> []).
  Proof.
    intros ps xs ys e B (Sx & Sy & D). induction B as [|p x y ps xs ys (B1 & B2 & B3 & B4 & B5) B IH].
    - exists [[e]], [fX e], [fY e], 0. cbn. ands; auto.
      + constructor; [|constructor]. unfold binv. ands; auto; intros u; cbn; split; [intros H; exists e; auto|intros (e' & [<-|[]] & H); auto|intros H; exists e; auto|intros (e' & [<-|[]] & H); auto].
      + intros j a. split.
        * intros (p & H & Ha). destruct j as [|[|]]; cbn in H; try discriminate. injection H as <-. destruct Ha as [<-|[]]. auto.
        * intros [(p & H & Ha)|[-> ->]]; [destruct j; discriminate|]. exists [e]. cbn. auto.
      + intros _ p [<-|[]]. discriminate.
    - cbn [assign_to_bucket]. destruct (disj_spec y (fX e)) as (d1 & E1 & D1); [apply ssorted_le; auto|apply ssorted_le; auto|]. rewrite E1. cbn [obind].
      destruct (disj_spec x (fY e)) as (d2 & E2 & D2); [apply ssorted_le; auto|apply ssorted_le; auto|].
      destruct (d1 && d2) eqn:Ed.
      + apply andb_true_iff in Ed. destruct Ed as [-> ->]. rewrite E2. cbn [obind]. pose proof (proj1 D1 eq_refl) as F1. pose proof (proj1 D2 eq_refl) as F2.
        do 4 eexists. split; [reflexivity|]. ands.
        * constructor; auto. unfold binv. ands.
          -- apply set_union_ssorted; auto.
          -- apply set_union_ssorted; auto.
          -- intros u. rewrite set_union_In, B3. split.
             ++ intros [(e' & H1 & H2)|H]; [exists e'; split; auto; apply in_or_app; auto|exists e; split; auto; apply in_or_app; cbn; auto].
             ++ intros (e' & H1 & H2). apply in_app_iff in H1. destruct H1 as [H1|[<-|[]]]; eauto.
          -- intros u. rewrite set_union_In, B4. split.
             ++ intros [(e' & H1 & H2)|H]; [exists e'; split; auto; apply in_or_app; auto|exists e; split; auto; apply in_or_app; cbn; auto].
             ++ intros (e' & H1 & H2). apply in_app_iff in H1. destruct H1 as [H1|[<-|[]]]; eauto.
          -- intros u Hu Hv. apply set_union_In in Hu. apply set_union_In in Hv. destruct Hu as [Hu|Hu], Hv as [Hv|Hv].
             ++ apply (B5 u); auto. ++ apply (F2 u); auto. ++ apply (F1 u); auto. ++ apply (D u); auto.
        * intros [|j] a; unfold at_part; cbn.
          -- split.
             ++ intros (q & H & Ha). injection H as <-. apply in_app_iff in Ha. destruct Ha as [Ha|[<-|[]]]; eauto.
             ++ intros [(q & H & Ha)|[_ ->]]; [injection H as <-|]; exists (p ++ [e]); split; auto; apply in_or_app; cbn; auto.
          -- split; [auto|]. intros [H|[H _]]; [auto|discriminate].
        * cbn. rewrite <- app_assoc. cbn. rewrite <- app_assoc. apply Permutation_app_head. apply Permutation_cons_append.
        * intros Hne q [<-|Hq]; [destruct p; discriminate|]. destruct Hne as [Hne|Hne]; [apply Hne; cbn; auto|]. injection Hne as -> ->. destruct Hq.
      + assert (El: (d <- (if d1 then disj x (fY e) else Some false);; if d then Some ((p ++ [e]) :: ps, set_union x (fX e) :: xs, set_union y (fY e) :: ys, 0)
           else r <- assign_to_bucket ps xs ys (fX e) (fY e) e;; (let '(ps', zx'', zy'', k) := r in Some (p :: ps', x :: zx'', y :: zy'', S k))) =
           (r <- assign_to_bucket ps xs ys (fX e) (fY e) e;; (let '(ps', zx'', zy'', k) := r in Some (p :: ps', x :: zx'', y :: zy'', S k)))).
        { destruct d1; cbn [obind]; auto. rewrite E2. cbn in Ed. subst d2. reflexivity. }
        rewrite El. destruct IH as (ps' & xs' & ys' & k & E & B' & I1 & I2 & I3). rewrite E. cbn [obind]. do 4 eexists. split; [reflexivity|]. ands.
        * constructor; auto. unfold binv. ands; auto.
        * intros [|j] a; unfold at_part; cbn; [split; [auto|intros [H|[H _]]; [auto|discriminate]]|]. specialize (I1 j a). unfold at_part in I1. rewrite I1. intuition lia.
        * cbn. rewrite <- app_assoc. apply Permutation_app_head. auto.
        * intros Hne q [<-|Hq].
          -- destruct Hne as [Hne|Hne]; [apply Hne; cbn; auto|]. exfalso. injection Hne as -> ->. inversion B; subst.
             assert (Zy: y = []). { destruct y as [|u y]; auto. exfalso. destruct (proj1 (B4 u) (or_introl eq_refl)) as (e' & [] & _). }
             assert (Zx: x = []). { destruct x as [|u x]; auto. exfalso. destruct (proj1 (B3 u) (or_introl eq_refl)) as (e' & [] & _). }
             subst x y. rewrite (proj2 D1), (proj2 D2) in Ed; auto; discriminate.
          -- apply I3; auto. destruct Hne as [Hne|Hne]; [left; intros; apply Hne; cbn; auto|]. injection Hne as -> ->. left. intros q' [].
  Qed.
  Lemma assign_all_spec : forall gX gY elems ps xs ys, BI ps xs ys ->
    (forall e, In e elems -> gX e = Some (fX e) /\ gY e = Some (fY e) /\ elem_ok e) ->
    exists ps' bm xs' ys', assign_all gX gY elems ps xs ys = Some (ps', bm) /\ BI ps' xs' ys' /\ map fst bm = elems /\
      (forall e k, In (e, k) bm -> at_part ps' k e) /\ Permutation (concat ps') (concat ps ++ elems) /\
      (forall j a, at_part ps j a -> at_part ps' j a) /\
      ((forall p, In p ps -> p <> []) \/ (ps = [[]] /\ elems <> []) -> forall p, In p ps' -> p <> []).
  Proof.
    intros gX gY. induction elems as [|e elems IH]; intros ps xs ys B H.
    - exists ps, [], xs, ys. cbn. rewrite app_nil_r. ands; auto; [intros e k []|]. intros [H1|[_ H1]]; [auto|congruence].
    - destruct (H e (or_introl eq_refl)) as (E1 & E2 & Oe). cbn [assign_all]. rewrite E1, E2. cbn [obind].
      destruct (assign_spec ps xs ys e B Oe) as (p1 & x1 & y1 & k & E & B1 & I1 & I2 & I3). rewrite E. cbn [obind].
      destruct (IH p1 x1 y1 B1) as (p2 & bm & x2 & y2 & Ea & B2 & J1 & J2 & J3 & J4 & J5); [intros; apply H; cbn; auto|].
      rewrite Ea. cbn [obind fst snd]. do 4 eexists. split; [reflexivity|]. ands; auto.
      + exact B2.
      + cbn. congruence.
      + intros e' k' [Hk|Hk]; auto. injection Hk as <- <-. apply J4. apply I1. auto.
      + eapply perm_trans; [apply J3|]. change (e :: elems) with ([e] ++ elems). rewrite app_assoc. apply Permutation_app_tail. auto.
      + intros j a Ha. apply J4, I1. auto.
      + intros Hne. apply J5. left. apply I3. destruct Hne as [Hne|[-> _]]; auto.
  Qed.
End Buckets.

(** *** make_pair_refinement *)
Lemma uniq_any : forall l prev, StronglySorted le l -> ssorted (uniq prev l) /\ (forall x, In x (uniq prev l) -> In x l) /\ (forall x, In x l -> In x (uniq prev l) \/ prev = Some x).
Proof.
  induction l as [|x l IH]; intros prev S; cbn [uniq]; [split; [constructor|cbn; tauto]|]. inversion S; subst. rewrite Forall_forall in H2.
  destruct (match prev with Some y => Nat.eqb y x | None => false end) eqn:E.
  - destruct prev as [y|]; [|discriminate]. apply Nat.eqb_eq in E. subst y. destruct (IH (Some x) H1) as (I1 & I2 & I3). ands; auto.
    + intros z Hz. cbn. auto.
    + intros z [->|Hz]; auto.
  - destruct (uniq_spec l (Some x) H1) as [I1 I2].
    { intros y Hy z Hz. injection Hy as <-. auto. }
    ands.
    + constructor; auto. apply Forall_forall. intros z Hz. apply I2 in Hz. destruct Hz as [Hz Hn]. apply H2 in Hz. assert (x <> z) by congruence. lia.
    + intros z [->|Hz]; cbn; auto. apply I2 in Hz. tauto.
    + intros z [->|Hz]; cbn; auto. left. destruct (Nat.eq_dec x z) as [->|Nz]; auto. right. apply I2. split; auto. congruence.
Qed.
Lemma last_Some_In : forall (l : list nat) x, last (map Some l) None = Some x -> In x l.
Proof.
  induction l as [|y l IH]; intros x H; [discriminate|]. destruct l as [|z l]; [cbn in H; injection H as ->; cbn; auto|]. cbn in IH. right. apply IH. exact H.
Qed.
Lemma first_disjoint : forall l w, StronglySorted ple l -> StronglySorted le w ->
  exists r, is_disjoint (fun (p : nat * nat) a => Nat.ltb (fst p) a) (fun a p => Nat.ltb a (fst p)) l w = Some (Some r) /\
    (r = true <-> forall p, In p l -> ~ In (fst p) w).
Proof.
  intros l w Sl Sw. apply fst_sorted in Sl.
  destruct (is_disjoint_spec (nat * nat) nat nat fst (fun x => x) Nat.ltb) with (a := l) (b := w) as (r & E & R).
  - intros x y H. apply Nat.ltb_lt in H. apply Nat.ltb_ge. lia.
  - intros x y z H. rewrite !Nat.ltb_lt in *. lia.
  - intros i j x y Hij Hi Hj. apply Nat.ltb_ge. eapply (le_nth (map fst l)); eauto; rewrite nth_error_map; [rewrite Hi|rewrite Hj]; auto.
  - intros i j x y Hij Hi Hj. apply Nat.ltb_ge. eapply (le_nth w); eauto.
  - exists r. split; [exact E|]. rewrite R. split.
    + intros H p Hp Hw. specialize (H p (fst p) Hp Hw). rewrite Nat.ltb_irrefl in H. destruct H; discriminate.
    + intros H p y Hp Hy. rewrite !Nat.ltb_lt. assert (fst p <> y) by (intros <-; eapply H; eauto). lia.
Qed.
Lemma is_sorted_le : forall l, StronglySorted le l -> is_sorted Nat.ltb l = true.
Proof.
  induction 1 as [|x l S IH F]; auto. destruct l as [|y l]; auto. change (negb (Nat.ltb y x) && is_sorted Nat.ltb (y :: l) = true). rewrite IH.
  inversion F; subst. replace (Nat.ltb y x) with false by (symmetry; apply Nat.ltb_ge; auto). auto.
Qed.
Definition get_or {A} (o : option (list A)) : list A := match o with Some l => l | None => [] end.
Lemma BI_start : forall fX fY, BI fX fY [[]] [[]] [[]].
Proof.
  intros. constructor; [|constructor]. unfold binv. ands; try constructor; cbn; try tauto; try (intros (e & [] & _)).
Qed.
Lemma at_part_lt : forall l j x, at_part l j x -> j < length l.
Proof. intros l j x (p & H & _). eapply nth_error_lt; eauto. Qed.
Lemma separated_two : forall l x y, separated l x y -> 2 <= length l.
Proof. intros l x y (j & k & N & H1 & H2). apply at_part_lt in H1, H2. lia. Qed.
Lemma at_part_app : forall l l' j x, at_part l j x -> at_part (l ++ l') j x.
Proof. intros l l' j x (p & H & Hx). exists p. split; auto. rewrite nth_error_app1; auto. eapply nth_error_lt; eauto. Qed.

Theorem pair_spec : forall ordB X Y Yw A_id B_id,
  (forall l, Permutation (ordB l) l) -> X <> [] -> (Y <> [] \/ Yw <> []) -> StronglySorted le Yw ->
  (forall p, In p X -> ~ In p Y) -> (forall p, In p X \/ In p Y -> ~ In (fst p) Yw) ->
  exists ra rb, pair_refine ordB X Y Yw A_id B_id = Some (ra, rb) /\ rf_id ra = A_id /\ rf_id rb = B_id /\
    (forall x, In x (concat (rf_parts ra)) <-> (exists b, In (x, b) X \/ In (x, b) Y) \/ In x Yw) /\
    (forall x, In x (concat (rf_parts rb)) <-> (exists a, In (a, x) X \/ In (a, x) Y)) /\
    (NoDup Yw -> NoDup (concat (rf_parts ra))) /\ NoDup (concat (rf_parts rb)) /\
    (forall p, In p (rf_parts ra) \/ In p (rf_parts rb) -> p <> []) /\
    (forall a b a' b', In (a, b) X -> In (a', b') Y -> separated (rf_parts ra) a a' \/ separated (rf_parts rb) b b') /\
    (forall a b a', In (a, b) X -> In a' Yw -> separated (rf_parts ra) a a').
Proof.
  intros ordB X Y Yw A_id B_id HordB HX HY Sw HXY HYw. unfold pair_refine.
  assert (E1: is_nil X = false) by (destruct X; auto; congruence). rewrite E1.
  assert (E2: is_nil Y && is_nil Yw = false) by (destruct Y, Yw; cbn; auto; destruct HY; congruence). rewrite E2. cbn [orb].
  rewrite is_sorted_le by auto. cbn [negb].
  pose proof (sort_pairs_sorted X) as SX. pose proof (sort_pairs_sorted Y) as SY. pose proof (sort_pairs_In X) as IX. pose proof (sort_pairs_In Y) as IY.
  remember (sort_pairs X) as Xs. remember (sort_pairs Y) as Ys.
  destruct (first_disjoint Ys Yw SY Sw) as (d1 & D1 & D1'). rewrite D1. cbn [obind].
  destruct (first_disjoint Xs Yw SX Sw) as (d2 & D2 & D2'). rewrite D2. cbn [obind].
  rewrite (proj2 D1') by (intros p Hp; apply HYw; right; apply IY; auto). rewrite (proj2 D2') by (intros p Hp; apply HYw; left; apply IX; auto).
  set (ax := uniq None (map fst Xs)). set (ay := uniq (last (map Some ax) None) (map fst Ys)).
  destruct (uniq_None (map fst Xs) (fst_sorted _ SX)) as [A1 A2]. fold ax in A1, A2.
  destruct (uniq_any (map fst Ys) (last (map Some ax) None) (fst_sorted _ SY)) as (A3 & A4 & A5). fold ay in A3, A4, A5.
  destruct (uniq_None (merge_nat ax ay)) as [A6 A7]; [apply merge_nat_sorted; apply ssorted_le; auto|].
  remember (uniq None (merge_nat ax ay)) as As eqn:EAs.
  assert (HAs: forall a, In a As <-> exists b, In (a, b) X \/ In (a, b) Y).
  { intros a. rewrite A7, merge_nat_In, A2, in_map_iff. split.
    - intros [([a' b] & <- & H)|H]; [exists b; left; apply IX; auto|]. apply A4 in H. apply in_map_iff in H. destruct H as ([a' b] & <- & H). exists b. right. apply IY; auto.
    - intros (b & [H|H]).
      + left. exists (a, b). split; auto. apply IX; auto.
      + assert (Ha: In a (map fst Ys)) by (apply in_map_iff; exists (a, b); split; auto; apply IY; auto). destruct (A5 a Ha) as [Ha'|Ha']; auto.
        left. apply last_Some_In in Ha'. apply A2 in Ha'. apply in_map_iff in Ha'. auto. }
  set (fX := fun a => get_or (BmatchA Xs a)). set (fY := fun a => get_or (BmatchA Ys a)).
  assert (HfX: forall a, BmatchA Xs a = Some (fX a) /\ ssorted (fX a) /\ forall b, In b (fX a) <-> In (a, b) X).
  { intros a. destruct (BmatchA_spec Xs a SX) as (l & E & Hl1 & Hl2). unfold fX. rewrite E. ands; auto. intros b. cbn. rewrite Hl2. apply IX. }
  assert (HfY: forall a, BmatchA Ys a = Some (fY a) /\ ssorted (fY a) /\ forall b, In b (fY a) <-> In (a, b) Y).
  { intros a. destruct (BmatchA_spec Ys a SY) as (l & E & Hl1 & Hl2). unfold fY. rewrite E. ands; auto. intros b. cbn. rewrite Hl2. apply IY. }
  destruct (assign_all_spec fX fY (BmatchA Xs) (BmatchA Ys) As [[]] [[]] [[]] (BI_start fX fY)) as (pa & bm & xa & ya & Ea & Ba & Fa & Ka & Pa & _ & Na).
  { intros a _. destruct (HfX a) as (X1 & X2 & X3), (HfY a) as (Y1 & Y2 & Y3). ands; auto. unfold elem_ok. ands; auto. intros u Hu Hv. apply (HXY (a, u)); [apply X3|apply Y3]; auto. }
  rewrite Ea. cbn [obind fst snd].
  assert (Sbm: ssorted (map fst bm)) by (rewrite Fa; auto).
  set (gX := fun b => get_or (AmatchB_bucket Xs b bm)). set (gY := fun b => get_or (AmatchB_bucket Ys b bm)).
  assert (HgX: forall b, AmatchB_bucket Xs b bm = Some (gX b) /\ ssorted (gX b) /\ forall k, In k (gX b) <-> exists a, In (a, b) X /\ In (a, k) bm).
  { intros b. destruct (AmatchB_spec Xs b bm SX Sbm) as (l & E & Hl1 & Hl2).
    - intros [a b'] Hp. rewrite Fa. apply HAs. exists b'. left. apply IX. auto.
    - unfold gX. rewrite E. ands; auto. intros k. cbn. rewrite Hl2. split; intros (a & H1 & H2); exists a; split; auto; apply IX; auto. }
  assert (HgY: forall b, AmatchB_bucket Ys b bm = Some (gY b) /\ ssorted (gY b) /\ forall k, In k (gY b) <-> exists a, In (a, b) Y /\ In (a, k) bm).
  { intros b. destruct (AmatchB_spec Ys b bm SY Sbm) as (l & E & Hl1 & Hl2).
    - intros [a b'] Hp. rewrite Fa. apply HAs. exists b'. right. apply IY. auto.
    - unfold gY. rewrite E. ands; auto. intros k. cbn. rewrite Hl2. split; intros (a & H1 & H2); exists a; split; auto; apply IY; auto. }
  remember (ordB (sort_set (map snd Xs ++ map snd Ys))) as Bs eqn:EBs.
  assert (HBs: forall b, In b Bs <-> exists a, In (a, b) X \/ In (a, b) Y).
  { intros b. rewrite EBs. transitivity (In b (sort_set (map snd Xs ++ map snd Ys))).
    - split; apply Permutation_in; [|apply Permutation_sym]; auto.
    - rewrite sort_set_In, in_app_iff, !in_map_iff. split.
      + intros [([a b'] & <- & H)|([a b'] & <- & H)]; exists a; [left; apply IX|right; apply IY]; auto.
      + intros (a & [H|H]); [left|right]; exists (a, b); split; auto; [apply IX|apply IY]; auto. }
  assert (NBs: NoDup Bs).
  { rewrite EBs. apply (Permutation_NoDup (Permutation_sym (HordB _))). apply ssorted_NoDup, sort_set_ssorted. }
  assert (Sep: forall a a' b k, In (a, b) X -> In (a', b) Y -> In (a, k) bm -> In (a', k) bm -> False).
  { intros a a' b k H1 H2 H3 H4. apply (BI_sep fX fY pa xa ya Ba k a a' b); auto; [apply HfX|apply HfY]; auto. }
  destruct (assign_all_spec gX gY (fun b => AmatchB_bucket Xs b bm) (fun b => AmatchB_bucket Ys b bm) Bs [[]] [[]] [[]] (BI_start gX gY)) as (pb & bm' & xb & yb & Eb & Bb & Fb & Kb & Pb & _ & Nb).
  { intros b _. destruct (HgX b) as (X1 & X2 & X3), (HgY b) as (Y1 & Y2 & Y3). ands; auto. unfold elem_ok. ands; auto. intros k Hu Hv.
    apply X3 in Hu. apply Y3 in Hv. destruct Hu as (a & H1 & H2), Hv as (a' & H3 & H4). eapply Sep; eauto. }
  rewrite Eb. cbn [obind fst snd app concat] in *.
  assert (Hbm: forall a, In a As -> exists k, In (a, k) bm).
  { intros a Ha. rewrite <- Fa in Ha. apply in_map_iff in Ha. destruct Ha as ([a' k] & <- & Hk). eauto. }
  assert (Hbm': forall b, In b Bs -> exists k, In (b, k) bm').
  { intros b Ha. rewrite <- Fb in Ha. apply in_map_iff in Ha. destruct Ha as ([a' k] & <- & Hk). eauto. }
  assert (SepAll: forall a b a' b', In (a, b) X -> In (a', b') Y -> separated pa a a' \/ separated pb b b').
  { intros a b a' b' H1 H2.
    destruct (Hbm a) as [k Hk]; [apply HAs; eauto|]. destruct (Hbm a') as [k' Hk']; [apply HAs; eauto|].
    destruct (Hbm' b) as [l Hl]; [apply HBs; eauto|]. destruct (Hbm' b') as [l' Hl']; [apply HBs; eauto|].
    destruct (Nat.eq_dec k k') as [->|N]; [|left; exists k, k'; auto]. destruct (Nat.eq_dec l l') as [->|N]; [|right; exists l, l'; auto]. exfalso.
    apply (BI_sep gX gY pb xb yb Bb l' b b' k'); auto; [apply HgX|apply HgY]; eauto. }
  assert (NeX: exists a b, In (a, b) X) by (destruct X as [|[a b] X']; [congruence|]; exists a, b; cbn; auto).
  assert (NeA: As <> []). { destruct NeX as (a & b & H). intros E. assert (In a As) by (apply HAs; eauto). rewrite E in H0. destruct H0. }
  assert (NeB: Bs <> []). { destruct NeX as (a & b & H). intros E. assert (In b Bs) by (apply HBs; eauto). rewrite E in H0. destruct H0. }
  set (pa' := if is_nil Yw then pa else pa ++ [Yw]).
  assert (SepAll': forall a b a' b', In (a, b) X -> In (a', b') Y -> separated pa' a a' \/ separated pb b b').
  { intros a b a' b' H1 H2. destruct (SepAll a b a' b' H1 H2) as [(j & k & N & Hj & Hk)|H]; auto. left. exists j, k. unfold pa'. destruct (is_nil Yw); ands; auto; apply at_part_app; auto. }
  assert (SepW: forall a b a', In (a, b) X -> In a' Yw -> separated pa' a a').
  { intros a b a' H1 H2. unfold pa'. assert (Ew: is_nil Yw = false) by (destruct Yw; [destruct H2|auto]). rewrite Ew.
    destruct (Hbm a) as [k Hk]; [apply HAs; eauto|]. apply Ka in Hk. exists k, (length pa). ands.
    - apply at_part_lt in Hk. lia.
    - apply at_part_app; auto.
    - exists Yw. split; auto. rewrite nth_error_app2, Nat.sub_diag; auto. }
  assert (L2: Nat.leb 2 (length pa') || Nat.leb 2 (length pb) = true).
  { apply orb_true_iff. destruct NeX as (a & b & Hab). destruct Y as [|[a' b'] Y'].
    - destruct Yw as [|w Yw']; [destruct HY; congruence|]. left. apply Nat.leb_le. eapply separated_two. eapply SepW; cbn; eauto.
    - destruct (SepAll' a b a' b' Hab (or_introl eq_refl)) as [H|H]; apply separated_two in H; [left|right]; apply Nat.leb_le; auto. }
  rewrite L2. eexists _, _. split; [reflexivity|]. cbn [rf_id rf_parts].
  assert (Hin: forall x, In x (concat pa') <-> In x As \/ In x Yw).
  { intros x. assert (Hp: In x (concat pa) <-> In x As) by (split; apply Permutation_in; auto; apply Permutation_sym; auto).
    unfold pa'. destruct Yw as [|w Yw']; cbn [is_nil]; [rewrite Hp; cbn; tauto|]. rewrite concat_app, in_app_iff, Hp. cbn. rewrite app_nil_r. tauto. }
  ands; auto.
  - intros x. rewrite Hin, HAs. tauto.
  - intros x. rewrite <- HBs. split; apply Permutation_in; auto; apply Permutation_sym; auto.
  - intros Nw. assert (Npa: NoDup (concat pa)) by (apply (Permutation_NoDup (Permutation_sym Pa)), ssorted_NoDup; auto).
    unfold pa'. destruct (is_nil Yw) eqn:Ew; auto. rewrite concat_app. cbn. rewrite app_nil_r. apply NoDup_app_intro; auto.
    intros x Hx Hw. apply (Permutation_in _ Pa) in Hx. apply HAs in Hx. destruct Hx as (b & [Hx|Hx]); apply (HYw (x, b)); auto.
  - apply (Permutation_NoDup (Permutation_sym Pb)); auto.
  - intros p [Hp|Hp].
    + unfold pa' in Hp. destruct (is_nil Yw) eqn:Ew; [apply Na; auto|]. apply in_app_iff in Hp. destruct Hp as [Hp|[<-|[]]]; [apply Na; auto|]. intros ->. discriminate.
    + apply Nb; auto.
Qed.

(** *** make_simple_pair_refinement *)
Lemma separated_singles : forall a a', a <> a' -> separated [[a]; [a']] a a'.
Proof. intros a a' N. exists 0, 1. ands; auto; [exists [a]|exists [a']]; cbn; auto. Qed.
Theorem simple_spec : forall X Y Yw A_id B_id,
  X <> [] -> (Y <> [] \/ Yw <> []) -> (forall p, In p X -> ~ In p Y) -> (forall p, In p X \/ In p Y -> ~ In (fst p) Yw) ->
  exists ra rb, simple_pair_refine X Y Yw A_id B_id = Some (ra, rb) /\ rf_id ra = A_id /\ rf_id rb = B_id /\
    (forall x, In x (concat (rf_parts ra)) -> (exists b, In (x, b) X \/ In (x, b) Y) \/ In x Yw) /\
    (forall x, In x (concat (rf_parts rb)) -> (exists a, In (a, x) X \/ In (a, x) Y)) /\
    NoDup (concat (rf_parts ra)) /\ NoDup (concat (rf_parts rb)) /\
    (forall p, In p (rf_parts ra) \/ In p (rf_parts rb) -> p <> []) /\
    exists a b, In (a, b) X /\
      ((exists a', In a' Yw /\ separated (rf_parts ra) a a') \/
       (exists a' b', In (a', b') Y /\ (separated (rf_parts ra) a a' \/ separated (rf_parts rb) b b'))).
Proof.
  intros X Y Yw A_id B_id HX HY HXY HYw. destruct X as [|[a b] X]; [congruence|]. unfold simple_pair_refine.
  assert (N2: forall u v : nat, u <> v -> NoDup (concat [[u]; [v]])) by (intros u v N; cbn; repeat constructor; cbn; intuition).
  assert (Hne: forall u v : nat, forall p, In p [[u]; [v]] -> p <> []) by (intros u v p [<-|[<-|[]]]; discriminate).
  destruct Yw as [|w Yw].
  - destruct Y as [|[a' b'] Y]; [destruct HY; congruence|]. cbn [obind fst snd].
    destruct (Nat.eqb_spec a a') as [Ea|Ea], (Nat.eqb_spec b b') as [Eb|Eb]; cbn [length Nat.leb orb].
    + subst. exfalso. apply (HXY (a', b')); cbn; auto.
    + subst a'. eexists _, _. split; [reflexivity|]. cbn [rf_id rf_parts]. ands; auto; try apply N2; auto; try apply NoDup_nil.
      * intros x [<-|[<-|[]]]; exists a; cbn; auto.
      * intros p [[]|Hp]. eapply Hne; eauto.
      * exists a, b. split; [cbn; auto|]. right. exists a, b'. split; [cbn; auto|]. right. apply separated_singles; auto.
    + subst b'. eexists _, _. split; [reflexivity|]. cbn [rf_id rf_parts]. ands; auto; try apply N2; auto; try apply NoDup_nil.
      * intros x [<-|[<-|[]]]; left; exists b; cbn; auto.
      * intros x [].
      * intros p [Hp|[]]. eapply Hne; eauto.
      * exists a, b. split; [cbn; auto|]. right. exists a', b. split; [cbn; auto|]. left. apply separated_singles; auto.
    + eexists _, _. split; [reflexivity|]. cbn [rf_id rf_parts]. ands; auto; try apply N2; auto.
      * intros x [<-|[<-|[]]]; left; [exists b|exists b']; cbn; auto.
      * intros x [<-|[<-|[]]]; [exists a|exists a']; cbn; auto.
      * intros p [Hp|Hp]; eapply Hne; eauto.
      * exists a, b. split; [cbn; auto|]. right. exists a', b'. split; [cbn; auto|]. left. apply separated_singles; auto.
  - assert (N: a <> w). { intros ->. apply (HYw (w, b)); cbn; auto. }
    replace (Nat.eqb a w) with false by (symmetry; apply Nat.eqb_neq; auto). cbn [obind fst snd length Nat.leb orb].
    eexists _, _. split; [reflexivity|]. cbn [rf_id rf_parts]. ands; auto; try apply N2; auto; try apply NoDup_nil.
    + intros x [<-|[<-|[]]]; [left; exists b|right]; cbn; auto.
    + intros x [].
    + intros p [Hp|[]]. eapply Hne; eauto.
    + exists a, b. split; [cbn; auto|]. left. exists w. split; [cbn; auto|]. apply separated_singles; auto.
Qed.
