(** Proofs about binary search, sorted vector containers, label sets and is_disjoint. *)
From Coq Require Import List Arith Lia Bool Sorting.Sorted Sorting.Permutation.
From Verif Require Import Base BaseFacts PdaModel PdaProof ContainersModel ContainersSpec.
Import ListNotations.

(** * Binary search *)
Lemma div2_lt : forall n, n <> 0 -> Nat.div2 n < n.
Proof. intros n H. apply Nat.lt_div2. lia. Qed.

Lemma lb_loop_spec : forall A (p : A -> bool) (l : list A) fuel first len,
  (forall i j x y, first <= i -> i <= j -> nth_error l i = Some x -> nth_error l j = Some y -> p y = true -> p x = true) ->
  first + len <= length l -> len <= fuel ->
  exists r, lb_loop p l fuel first len = Some r /\ first <= r <= first + len /\
    (forall i x, first <= i < r -> nth_error l i = Some x -> p x = true) /\
    (forall i x, r <= i < first + len -> nth_error l i = Some x -> p x = false).
Proof.
  induction fuel as [|fuel IH]; intros first len Hm Hl Hf.
  - exists first. cbn. split; auto. split; [lia|]. split; intros; lia.
  - cbn. destruct (Nat.eqb len 0) eqn:E.
    { apply Nat.eqb_eq in E. exists first. split; auto. split; [lia|]. split; intros; lia. }
    apply Nat.eqb_neq in E. pose proof (div2_lt len E) as Hd.
    destruct (nth_error l (first + Nat.div2 len)) as [x|] eqn:Ex.
    2:{ apply nth_error_None in Ex. lia. }
    cbn. destruct (p x) eqn:Ep.
    + destruct (IH (first + Nat.div2 len + 1) (len - Nat.div2 len - 1)) as (r & R1 & R2 & R3 & R4).
      { intros i j a b Hi Hj. apply Hm; lia. }
      { lia. } { lia. }
      exists r. split; auto. split; [lia|]. split.
      * intros i a Hi Ha. destruct (le_lt_dec i (first + Nat.div2 len)).
        { apply (Hm i (first + Nat.div2 len) a x); auto; lia. }
        { apply R3 with i; auto; lia. }
      * intros i a Hi Ha. apply R4 with i; auto; lia.
    + destruct (IH first (Nat.div2 len)) as (r & R1 & R2 & R3 & R4); auto; [lia|lia|].
      exists r. split; auto. split; [lia|]. split; auto.
      intros i a Hi Ha. destruct (le_lt_dec (first + Nat.div2 len) i).
      * destruct (p a) eqn:Ea; auto. rewrite (Hm (first + Nat.div2 len) i x a) in Ep; auto; lia.
      * apply R4 with i; auto; lia.
Qed.

(** [p] is true on a prefix. *)
Definition prefix_true {A} (p : A -> bool) (l : list A) : Prop :=
  forall i j x y, i <= j -> nth_error l i = Some x -> nth_error l j = Some y -> p y = true -> p x = true.

Lemma lower_bound_split : forall A (p : A -> bool) (l : list A), prefix_true p l ->
  exists l1 l2, l = l1 ++ l2 /\ lower_bound p l = Some (length l1) /\ Forall (fun x => p x = true) l1 /\ Forall (fun x => p x = false) l2.
Proof.
  intros A p l H. destruct (lb_loop_spec A p l (length l) 0 (length l)) as (r & R1 & R2 & R3 & R4); auto.
  { intros i j x y _. apply H. }
  exists (firstn r l), (skipn r l). split; [symmetry; apply firstn_skipn|]. split.
  { unfold lower_bound. rewrite R1. f_equal. rewrite firstn_length. lia. }
  split; apply Forall_forall; intros x Hx; apply In_nth_error in Hx; destruct Hx as [i Hi].
  - assert (i < length (firstn r l)) by (apply nth_error_Some; congruence).
    rewrite firstn_length in H0. apply (R3 i); [lia|].
    rewrite <- (firstn_skipn r l). rewrite nth_error_app1; auto. rewrite firstn_length. lia.
  - assert (i < length (skipn r l)) by (apply nth_error_Some; congruence).
    rewrite skipn_length in H0. apply (R4 (r + i)); [lia|].
    rewrite <- (firstn_skipn r l). rewrite nth_error_app2; rewrite firstn_length; [|lia].
    replace (r + i - Nat.min r (length l)) with i by lia. auto.
Qed.

(** Binary search finds what a linear search finds. *)
Lemma lower_bound_linear : forall A (p : A -> bool) (l : list A), prefix_true p l ->
  exists r, lower_bound p l = Some r /\ skipn r l = drop_while p l /\ firstn r l = take_while p l.
Proof.
  intros A p l H. destruct (lower_bound_split A p l H) as (l1 & l2 & E & R & F1 & F2).
  exists (length l1). split; auto. subst l. clear H R.
  rewrite skipn_app, skipn_all, firstn_app, firstn_all, Nat.sub_diag. cbn.
  rewrite app_nil_r. induction F1 as [|x l1 Hx F1 IH]; cbn.
  - destruct F2 as [|y l2 Hy F2]; cbn; auto. rewrite Hy. auto.
  - rewrite Hx. destruct IH as [I1 I2]. split; auto. f_equal. auto.
Qed.

Lemma nth_error_mid : forall A (l1 l2 : list A), nth_error (l1 ++ l2) (length l1) = hd_error l2.
Proof. intros. rewrite nth_error_app2 by lia. rewrite Nat.sub_diag. destruct l2; auto. Qed.
Lemma insert_at_mid : forall A (l1 l2 : list A) x, insert_at (l1 ++ l2) (length l1) x = l1 ++ x :: l2.
Proof.
  intros. unfold insert_at. rewrite firstn_app, firstn_all, skipn_app, skipn_all, Nat.sub_diag. cbn.
  rewrite app_nil_r. auto.
Qed.
Lemma upd_mid : forall A (l1 l2 : list A) x y, upd (l1 ++ x :: l2) (length l1) y = l1 ++ y :: l2.
Proof. induction l1; intros; cbn; [|rewrite IHl1]; auto. Qed.

(** * vector_map *)
Section Keyed.
  Variables (K V : Type) (ltb eqb : K -> K -> bool).
  Variable TO : total_order ltb eqb.

  Lemma ltb_asym : forall a b, ltb a b = true -> ltb b a = false.
  Proof.
    intros a b H. destruct (ltb b a) eqn:E; auto.
    pose proof (to_trans _ _ TO _ _ _ H E). rewrite (to_irrefl _ _ TO) in H0. discriminate.
  Qed.
  Lemma eqb_refl' : forall a, eqb a a = true.
  Proof. intros. apply (to_eq _ _ TO). auto. Qed.
  Lemma eqb_false : forall a b, eqb a b = false <-> a <> b.
  Proof.
    intros. split.
    - intros H E. subst. rewrite eqb_refl' in H. discriminate.
    - intros H. destruct (eqb a b) eqn:E; auto. apply (to_eq _ _ TO) in E. contradiction.
  Qed.

  Definition msorted (m : list (K * V)) : Prop := StronglySorted (fun a b => ltb (fst a) (fst b) = true) m.

  Lemma msorted_prefix : forall m k, msorted m -> prefix_true (fun e => ltb (fst e) k) m.
  Proof.
    intros m k H. induction H as [|e m Hs IH Hf]; intros i j x y Hij Hi Hj Hy.
    - destruct i; discriminate.
    - destruct i as [|i]; cbn in Hi.
      + injection Hi as <-. destruct j as [|j]; cbn in Hj; [congruence|].
        apply nth_error_In in Hj. rewrite Forall_forall in Hf. apply Hf in Hj.
        apply (to_trans _ _ TO) with (fst y); auto.
      + destruct j as [|j]; [lia|]. apply (IH i j x y); auto; lia.
  Qed.

  Lemma msorted_app : forall l1 l2, msorted (l1 ++ l2) <->
    msorted l1 /\ msorted l2 /\ (forall a b, In a l1 -> In b l2 -> ltb (fst a) (fst b) = true).
  Proof.
    unfold msorted. induction l1 as [|e l1 IH]; intros l2; cbn.
    - split; [intros H; split; [constructor|]; split; [auto|]; intros a b []|intros (_ & H & _); auto].
    - split.
      + intros H. inversion H as [|? ? H1 H2]; subst. apply IH in H1. destruct H1 as (A & B & C).
        apply Forall_app in H2. destruct H2 as [F1 F2]. split; [constructor; auto|]. split; auto.
        intros a b [->|Ha] Hb; auto. rewrite Forall_forall in F2. auto.
      + intros (A & B & C). inversion A; subst. constructor.
        * apply IH. repeat split; auto.
        * apply Forall_app. split; auto. apply Forall_forall. auto.
  Qed.
  Lemma msorted_cons : forall e m, msorted (e :: m) <-> msorted m /\ (forall b, In b m -> ltb (fst e) (fst b) = true).
  Proof.
    intros. unfold msorted. split.
    - intros H; inversion H; subst. rewrite Forall_forall in *. auto.
    - intros [A B]. constructor; auto. apply Forall_forall; auto.
  Qed.

  Lemma msorted_NoDup : forall m, msorted m -> NoDup (map fst m).
  Proof.
    induction m as [|e m IH]; cbn; intros H; [constructor|].
    apply msorted_cons in H. destruct H as [H1 H2]. constructor; auto.
    intros Hin. apply in_map_iff in Hin. destruct Hin as (e' & E & Hin). apply H2 in Hin. rewrite E in Hin.
    rewrite (to_irrefl _ _ TO) in Hin. discriminate.
  Qed.

  Lemma assoc_In : forall (l : list (K * V)) k v, NoDup (map fst l) -> (assoc eqb l k = Some v <-> In (k, v) l).
  Proof.
    induction l as [|[k' v'] l IH]; cbn; intros k v Hn; [split; [discriminate|tauto]|].
    inversion Hn; subst. destruct (eqb k' k) eqn:E.
    - apply (to_eq _ _ TO) in E. subst. split.
      + intros H. injection H as <-. auto.
      + intros [H|H]; [congruence|]. exfalso. apply H1. change k with (fst (k, v)). apply in_map; auto.
    - rewrite IH by auto. apply eqb_false in E. split; auto. intros [H|H]; auto. congruence.
  Qed.
  Lemma assoc_None : forall (l : list (K * V)) k, assoc eqb l k = None <-> ~ In k (map fst l).
  Proof.
    induction l as [|[k' v'] l IH]; cbn; intros k; [tauto|].
    destruct (eqb k' k) eqn:E.
    - apply (to_eq _ _ TO) in E. subst. split; [discriminate|tauto].
    - apply eqb_false in E. rewrite IH. tauto.
  Qed.
  Lemma assoc_perm : forall (l1 l2 : list (K * V)) k, NoDup (map fst l1) -> Permutation l1 l2 -> assoc eqb l1 k = assoc eqb l2 k.
  Proof.
    intros l1 l2 k Hn Hp. assert (Hn2 : NoDup (map fst l2)).
    { eapply Permutation_NoDup; [apply Permutation_map, Hp|auto]. }
    destruct (assoc eqb l1 k) as [v|] eqn:E1.
    - symmetry. apply assoc_In; auto. apply assoc_In in E1; auto. eapply Permutation_in; eauto.
    - symmetry. apply assoc_None. apply assoc_None in E1. intros H. apply E1.
      eapply Permutation_in; [apply Permutation_map, Permutation_sym, Hp|auto].
  Qed.

  (** The two halves around a key. *)
  Lemma vm_split : forall m k, msorted m ->
    exists l1 l2, lower_bound (fun e => ltb (fst e) k) m = Some (length l1) /\
      (forall e, In e l1 -> ltb (fst e) k = true) /\
      ((exists v, m = l1 ++ (k, v) :: l2 /\ (forall e, In e l2 -> ltb k (fst e) = true)) \/
       (m = l1 ++ l2 /\ (forall e, In e l2 -> ltb k (fst e) = true))).
  Proof.
    intros m k Hs. destruct (lower_bound_split _ _ _ (msorted_prefix m k Hs)) as (l1 & l2 & E & R & F1 & F2).
    exists l1. rewrite Forall_forall in F1, F2.
    assert (Hk : forall e, In e l2 -> fst e = k \/ ltb k (fst e) = true).
    { intros e He. apply F2 in He. destruct (to_total _ _ TO (fst e) k) as [H|[H|H]]; auto. congruence. }
    subst m. apply msorted_app in Hs. destruct Hs as (S1 & S2 & S3).
    destruct l2 as [|[k' v'] l2].
    - exists []. split; [exact R|]. split; [exact F1|]. right. split; [reflexivity|intros e []].
    - apply msorted_cons in S2. destruct S2 as [S2 S4].
      destruct (Hk (k', v') (or_introl eq_refl)) as [H|H]; cbn in H.
      + subst k'. exists l2. split; [exact R|]. split; [exact F1|]. left. exists v'. split; auto.
      + exists ((k', v') :: l2). split; [exact R|]. split; [exact F1|]. right. split; [reflexivity|].
        intros e [<-|He]; auto. apply S4 in He. apply (to_trans _ _ TO) with k'; auto.
  Qed.

  Lemma vm_get_assoc : forall m k, msorted m -> vm_get ltb eqb m k = Some (assoc eqb m k) /\
    vm_contains ltb eqb m k = Some (match assoc eqb m k with Some _ => true | None => false end).
  Proof.
    intros m k Hs. destruct (vm_split m k Hs) as (l1 & l2 & R & F1 & D).
    unfold vm_get, vm_find, vm_contains. rewrite R. cbn.
    destruct D as [(v & E & F2)|(E & F2)].
    - assert (HA : assoc eqb m k = Some v).
      { apply assoc_In; [apply msorted_NoDup; auto|]. subst m. apply in_elt. }
      rewrite HA. subst m. rewrite nth_error_mid. cbn. rewrite eqb_refl'. rewrite nth_error_mid. auto.
    - assert (HA : assoc eqb m k = None).
      { apply assoc_None. intros H. subst m. rewrite map_app, in_app_iff in H.
        assert (Hc : exists e, (In e l1 \/ In e l2) /\ fst e = k).
        { destruct H as [H|H]; apply in_map_iff in H; destruct H as (e & He & Hin); exists e; auto. }
        destruct Hc as (e & [He|He] & Hk); [apply F1 in He|apply F2 in He]; rewrite Hk in He;
          rewrite (to_irrefl _ _ TO) in He; discriminate. }
      rewrite HA. subst m. rewrite nth_error_mid. destruct l2 as [|e l2]; cbn; auto.
      assert (eqb (fst e) k = false).
      { apply eqb_false. intros <-. specialize (F2 e (or_introl eq_refl)). rewrite (to_irrefl _ _ TO) in F2. discriminate. }
      rewrite H. auto.
  Qed.

  Lemma insert_sorted : forall l1 l2 k v, msorted (l1 ++ l2) -> (forall e, In e l1 -> ltb (fst e) k = true) ->
    (forall e, In e l2 -> ltb k (fst e) = true) -> msorted (l1 ++ (k, v) :: l2).
  Proof.
    intros l1 l2 k v Hs F1 F2. apply msorted_app in Hs. destruct Hs as (S1 & S2 & S3).
    apply msorted_app. split; auto. split.
    - apply msorted_cons. auto.
    - intros a b Ha [<-|Hb]; auto.
  Qed.

  Lemma vm_emplace_spec : forall m k v, msorted m -> exists m' i,
    vm_emplace ltb eqb m k v = Some (m', (i, match assoc eqb m k with Some _ => false | None => true end)) /\
    msorted m' /\ Permutation m' (match assoc eqb m k with Some _ => m | None => (k, v) :: m end) /\
    nth_error m' i = Some (k, match assoc eqb m k with Some w => w | None => v end).
  Proof.
    intros m k v Hs. destruct (vm_split m k Hs) as (l1 & l2 & R & F1 & D).
    unfold vm_emplace. rewrite R. cbn.
    destruct D as [(w & E & F2)|(E & F2)].
    - assert (HA : assoc eqb m k = Some w).
      { apply assoc_In; [apply msorted_NoDup; auto|]. subst m. apply in_elt. }
      rewrite HA. exists m, (length l1). subst m. rewrite nth_error_mid. cbn. rewrite eqb_refl'. auto.
    - assert (HA : assoc eqb m k = None).
      { apply assoc_None. intros H. subst m. rewrite map_app, in_app_iff in H.
        assert (Hc : exists e, (In e l1 \/ In e l2) /\ fst e = k).
        { destruct H as [H|H]; apply in_map_iff in H; destruct H as (e & He & Hin); exists e; auto. }
        destruct Hc as (e & [He|He] & Hk); [apply F1 in He|apply F2 in He]; rewrite Hk in He;
          rewrite (to_irrefl _ _ TO) in He; discriminate. }
      rewrite HA. exists (l1 ++ (k, v) :: l2), (length l1). subst m. rewrite insert_at_mid, nth_error_mid.
      split.
      + destruct l2 as [|e l2]; cbn; auto.
        assert (eqb (fst e) k = false).
        { apply eqb_false. intros <-. specialize (F2 e (or_introl eq_refl)). rewrite (to_irrefl _ _ TO) in F2. discriminate. }
        rewrite H. auto.
      + split; [apply insert_sorted; auto|]. split; [apply Permutation_sym, Permutation_middle|]. rewrite nth_error_mid. auto.
  Qed.

  Lemma without_notin : forall (l : list (K * V)) k, ~ In k (map fst l) -> without eqb l k = l.
  Proof.
    induction l as [|[k' v'] l IH]; cbn; intros k H; auto.
    assert (eqb k' k = false) as -> by (apply eqb_false; intros ->; tauto). cbn. f_equal. apply IH. tauto.
  Qed.

  Lemma vm_assign_spec : forall m k v, msorted m -> exists m' i,
    vm_assign ltb eqb m k v = Some (m', (i, match assoc eqb m k with Some _ => false | None => true end)) /\
    msorted m' /\ Permutation m' ((k, v) :: without eqb m k) /\ nth_error m' i = Some (k, v).
  Proof.
    intros m k v Hs. pose proof (vm_split m k Hs) as (l1 & l2 & R & F1 & D).
    pose proof (msorted_NoDup m Hs) as Hn.
    unfold vm_assign. rewrite R. cbn.
    destruct D as [(w & E & F2)|(E & F2)].
    - assert (HA : assoc eqb m k = Some w).
      { apply assoc_In; auto. subst m. apply in_elt. }
      rewrite HA. exists (l1 ++ (k, v) :: l2), (length l1). subst m. rewrite !nth_error_mid. cbn. rewrite eqb_refl'.
      rewrite upd_mid. split; auto.
      apply msorted_app in Hs. destruct Hs as (S1 & S2 & S3). apply msorted_cons in S2. destruct S2 as [S2 S4].
      split; [|split]; auto.
      + apply msorted_app. split; auto. split; [apply msorted_cons; auto|].
        intros a b Ha [<-|Hb]; [apply (S3 a (k, w)); auto; left; auto|]. apply S3; auto. right; auto.
      + unfold without. rewrite filter_app. cbn. rewrite eqb_refl'. cbn.
        fold (without eqb l1 k). fold (without eqb l2 k).
        rewrite map_app in Hn. cbn in Hn. apply NoDup_remove_2 in Hn. rewrite in_app_iff in Hn.
        rewrite !without_notin by tauto. apply Permutation_sym, Permutation_middle.
    - assert (HA : assoc eqb m k = None).
      { apply assoc_None. intros H. subst m. rewrite map_app, in_app_iff in H.
        assert (Hc : exists e, (In e l1 \/ In e l2) /\ fst e = k).
        { destruct H as [H|H]; apply in_map_iff in H; destruct H as (e & He & Hin); exists e; auto. }
        destruct Hc as (e & [He|He] & Hk); [apply F1 in He|apply F2 in He]; rewrite Hk in He;
          rewrite (to_irrefl _ _ TO) in He; discriminate. }
      rewrite HA. rewrite without_notin by (apply assoc_None; auto).
      exists (l1 ++ (k, v) :: l2), (length l1). subst m. rewrite insert_at_mid, nth_error_mid.
      split.
      + destruct l2 as [|e l2]; cbn; auto.
        assert (eqb (fst e) k = false).
        { apply eqb_false. intros <-. specialize (F2 e (or_introl eq_refl)). rewrite (to_irrefl _ _ TO) in F2. discriminate. }
        rewrite H. auto.
      + split; [apply insert_sorted; auto|]. split; [apply Permutation_sym, Permutation_middle|]. rewrite nth_error_mid. auto.
  Qed.

  (** Filtering by rank keeps a prefix of a sorted vector. *)
  Lemma smaller_keys_mid : forall l1 e l2, msorted (l1 ++ e :: l2) -> smaller_keys ltb (l1 ++ e :: l2) (fst e) = length l1.
  Proof.
    intros l1 e l2 Hs. apply msorted_app in Hs. destruct Hs as (S1 & S2 & S3).
    apply msorted_cons in S2. destruct S2 as [S2 S4].
    unfold smaller_keys. rewrite filter_app, app_length. cbn. rewrite (to_irrefl _ _ TO).
    assert (F1 : forall l : list (K * V), (forall a, In a l -> ltb (fst a) (fst e) = true) -> length (filter (fun a => ltb (fst a) (fst e)) l) = length l).
    { induction l as [|a l IH]; cbn; intros H; auto. rewrite H by auto. cbn. rewrite IH; auto. }
    assert (F2 : forall l : list (K * V), (forall a, In a l -> ltb (fst e) (fst a) = true) -> length (filter (fun a => ltb (fst a) (fst e)) l) = 0).
    { induction l as [|a l IH]; cbn; intros H; auto. rewrite ltb_asym by auto. auto. }
    rewrite F1, F2; auto. intros a Ha. apply S3; auto. left; auto.
  Qed.
  Lemma filter_rank : forall m n, msorted m -> filter (fun e => Nat.ltb (smaller_keys ltb m (fst e)) n) m = firstn n m.
  Proof.
    intros m n Hs.
    assert (G : forall l2 l1, l1 ++ l2 = m -> filter (fun e => Nat.ltb (smaller_keys ltb m (fst e)) n) l2 = firstn (n - length l1) l2).
    { induction l2 as [|e l2 IH]; intros l1 E; cbn; [rewrite firstn_nil; auto|].
      specialize (IH (l1 ++ [e])). rewrite <- app_assoc in IH. cbn in IH. specialize (IH E).
      rewrite app_length in IH. cbn in IH.
      assert (Hr : smaller_keys ltb m (fst e) = length l1) by (rewrite <- E in *; apply smaller_keys_mid; auto).
      rewrite Hr. destruct (length l1 <? n) eqn:El.
      - apply Nat.ltb_lt in El. destruct (n - length l1) as [|d] eqn:Ed; [lia|]. cbn. f_equal. rewrite IH. f_equal. lia.
      - apply Nat.ltb_ge in El. rewrite IH. replace (n - length l1) with 0 by lia.
        replace (n - (length l1 + 1)) with 0 by lia. auto. }
    rewrite (G m []); auto. cbn. f_equal. lia.
  Qed.

  Lemma perm_filter : forall A (f : A -> bool) l1 l2, Permutation l1 l2 -> Permutation (filter f l1) (filter f l2).
  Proof.
    intros A f l1 l2 H. induction H; cbn; auto.
    - destruct (f x); auto.
    - destruct (f x), (f y); auto. apply perm_swap.
    - eapply Permutation_trans; eauto.
  Qed.
  Lemma smaller_keys_perm : forall (l1 l2 : list (K * V)) k, Permutation l1 l2 -> smaller_keys ltb l1 k = smaller_keys ltb l2 k.
  Proof. intros. unfold smaller_keys. apply Permutation_length, perm_filter. auto. Qed.

  Lemma vm_do_spec : forall m l c, msorted m -> Permutation m l ->
    match vm_do ltb eqb m c, fm_do ltb eqb l c with
    | Some m', Some l' => msorted m' /\ Permutation m' l'
    | None, None => True
    | _, _ => False
    end.
  Proof.
    intros m l c Hs Hp. pose proof (msorted_NoDup m Hs) as Hn.
    destruct c as [k v|k v|n|]; cbn.
    - destruct (vm_emplace_spec m k v Hs) as (m' & i & E & S' & P' & _). rewrite E. cbn. split; auto.
      rewrite <- (assoc_perm m l k) by auto. eapply Permutation_trans; [apply P'|].
      destruct (assoc eqb m k); auto.
    - destruct (vm_assign_spec m k v Hs) as (m' & i & E & S' & P' & _). rewrite E. cbn. split; auto.
      eapply Permutation_trans; [apply P'|]. apply perm_skip. apply perm_filter. auto.
    - unfold vm_resize. rewrite (Permutation_length Hp). destruct (n <=? length l); auto. split.
      + rewrite <- (firstn_skipn n m) in Hs. apply msorted_app in Hs. tauto.
      + rewrite <- (filter_rank m n Hs). eapply Permutation_trans; [apply perm_filter, Hp|].
        erewrite filter_ext; [apply Permutation_refl|]. intros e. cbn. rewrite (smaller_keys_perm m l) by auto. auto.
    - split; auto. constructor.
  Qed.

  Lemma vm_run_spec : forall cs,
    match vm_run ltb eqb cs, fm_run ltb eqb cs with
    | Some m, Some l => msorted m /\ Permutation m l
    | None, None => True
    | _, _ => False
    end.
  Proof.
    unfold vm_run, fm_run.
    assert (G : forall cs m l, msorted m -> Permutation m l ->
      match ofold (vm_do ltb eqb) cs m, ofold (fm_do ltb eqb) cs l with
      | Some m', Some l' => msorted m' /\ Permutation m' l' | None, None => True | _, _ => False end).
    { induction cs as [|c cs IH]; intros m l Hs Hp; cbn; auto.
      pose proof (vm_do_spec m l c Hs Hp) as H.
      destruct (vm_do ltb eqb m c), (fm_do ltb eqb l c); cbn; try tauto. destruct H as [H1 H2]. apply IH; auto. }
    intros cs. apply G; auto. constructor.
  Qed.

  Lemma vm_ins_spec : forall e l, msorted l -> ~ In (fst e) (map fst l) -> msorted (vm_ins ltb e l) /\ Permutation (vm_ins ltb e l) (e :: l).
  Proof.
    intros e l. induction l as [|a l IH]; cbn; intros Hs Hn.
    - split; auto. repeat constructor.
    - apply msorted_cons in Hs. destruct Hs as [Hs Ha]. destruct (ltb (fst a) (fst e)) eqn:E.
      + destruct IH as [I1 I2]; auto. split.
        * apply msorted_cons. split; auto. intros b Hb. eapply Permutation_in in Hb; [|apply I2].
          destruct Hb as [<-|Hb]; auto.
        * eapply Permutation_trans; [apply perm_skip, I2|]. apply perm_swap.
      + split; auto. apply msorted_cons. split; [apply msorted_cons; auto|].
        assert (Hea : ltb (fst e) (fst a) = true).
        { destruct (to_total _ _ TO (fst e) (fst a)) as [H|[H|H]]; [exact H|exfalso; apply Hn; left; auto|congruence]. }
        intros b [<-|Hb]; auto. apply (to_trans _ _ TO) with (fst a); auto.
  Qed.
  Lemma vm_of_unordered_spec : forall l, NoDup (map fst l) -> msorted (vm_of_unordered ltb l) /\ Permutation (vm_of_unordered ltb l) l.
  Proof.
    induction l as [|e l IH]; cbn; intros Hn; [split; constructor|].
    inversion Hn; subst. destruct IH as [I1 I2]; auto.
    destruct (vm_ins_spec e (vm_of_unordered ltb l)) as [J1 J2]; auto.
    { intros Hi. apply H1. eapply Permutation_in; [apply Permutation_map, I2|auto]. }
    split; auto. eapply Permutation_trans; [apply J2|]. auto.
  Qed.
End Keyed.

(** * vector_set *)
Section SetKeyed.
  Variables (K : Type) (ltb eqb : K -> K -> bool).
  Variable TO : total_order ltb eqb.

  Definition ksorted (s : list K) : Prop := StronglySorted (fun a b => ltb a b = true) s.
  Lemma ksorted_cons : forall e m, ksorted (e :: m) <-> ksorted m /\ (forall b, In b m -> ltb e b = true).
  Proof.
    intros. unfold ksorted. split.
    - intros H; inversion H; subst. rewrite Forall_forall in *. auto.
    - intros [A B]. constructor; auto. apply Forall_forall; auto.
  Qed.
  Lemma ksorted_app : forall l1 l2, ksorted (l1 ++ l2) <->
    ksorted l1 /\ ksorted l2 /\ (forall a b, In a l1 -> In b l2 -> ltb a b = true).
  Proof.
    induction l1 as [|e l1 IH]; intros l2; cbn.
    - split; [intros H; split; [constructor|]; split; [auto|]; intros a b []|intros (_ & H & _); auto].
    - rewrite !ksorted_cons, IH. split.
      + intros ((A & B & C) & D). split; [split; auto; intros; apply D, in_or_app; auto|]. split; auto.
        intros a b [<-|Ha] Hb; auto. apply D, in_or_app; auto.
      + intros ((A & B) & C & D). split; [split; auto|].
        intros b Hb. apply in_app_or in Hb. destruct Hb; auto.
  Qed.
  Lemma ksorted_prefix : forall m k, ksorted m -> prefix_true (fun e => ltb e k) m.
  Proof.
    intros m k H. induction H as [|e m Hs IH Hf]; intros i j x y Hij Hi Hj Hy.
    - destruct i; discriminate.
    - destruct i as [|i]; cbn in Hi.
      + injection Hi as <-. destruct j as [|j]; cbn in Hj; [congruence|].
        apply nth_error_In in Hj. rewrite Forall_forall in Hf. apply Hf in Hj.
        apply (to_trans _ _ TO) with y; auto.
      + destruct j as [|j]; [lia|]. apply (IH i j x y); auto; lia.
  Qed.
  Lemma ks_split : forall m k, ksorted m ->
    exists l1 l2, lower_bound (fun e => ltb e k) m = Some (length l1) /\
      (forall e, In e l1 -> ltb e k = true) /\ (forall e, In e l2 -> ltb k e = true) /\
      ((m = l1 ++ k :: l2) \/ m = l1 ++ l2).
  Proof.
    intros m k Hs. destruct (lower_bound_split _ _ _ (ksorted_prefix m k Hs)) as (l1 & l2 & E & R & F1 & F2).
    exists l1. rewrite Forall_forall in F1, F2.
    assert (Hk : forall e, In e l2 -> e = k \/ ltb k e = true).
    { intros e He. apply F2 in He. destruct (to_total _ _ TO e k) as [H|[H|H]]; auto. congruence. }
    subst m. apply ksorted_app in Hs. destruct Hs as (S1 & S2 & S3).
    destruct l2 as [|k' l2].
    - exists []. split; [exact R|]. split; [exact F1|]. split; [intros e []|]. right. reflexivity.
    - apply ksorted_cons in S2. destruct S2 as [S2 S4].
      destruct (Hk k' (or_introl eq_refl)) as [H|H].
      + subst k'. exists l2. split; [exact R|]. split; [exact F1|]. split; [exact S4|]. left. reflexivity.
      + exists (k' :: l2). split; [exact R|]. split; [exact F1|]. split; [|right; reflexivity].
        intros e [<-|He]; auto. apply S4 in He. apply (to_trans _ _ TO) with k'; auto.
  Qed.
  Lemma ks_notin : forall l1 l2 k, (forall e, In e l1 -> ltb e k = true) -> (forall e, In e l2 -> ltb k e = true) -> ~ In k (l1 ++ l2).
  Proof.
    intros l1 l2 k F1 F2 H. apply in_app_or in H. destruct H as [H|H]; [apply F1 in H|apply F2 in H];
      rewrite (to_irrefl _ _ TO) in H; discriminate.
  Qed.
  Lemma ks_hd : forall l2 k, (forall e, In e l2 -> ltb k e = true) ->
    match hd_error l2 with Some x => eqb x k | None => false end = false.
  Proof.
    intros [|e l2] k F; cbn; auto. destruct (eqb e k) eqn:E; auto. apply (to_eq _ _ TO) in E. subst.
    rewrite <- (F k), (to_irrefl _ _ TO); auto. left; auto.
  Qed.

  Lemma vset_contains_spec : forall s k, ksorted s -> exists b, vset_contains ltb eqb s k = Some b /\ (b = true <-> In k s).
  Proof.
    intros s k Hs. destruct (ks_split s k Hs) as (l1 & l2 & R & F1 & F2 & D).
    unfold vset_contains. rewrite R. cbn. destruct D as [->| ->]; rewrite nth_error_mid; cbn.
    - exists true. rewrite (proj2 (to_eq _ _ TO k k)) by auto. split; auto. split; auto. intros _. apply in_elt.
    - exists false. rewrite ks_hd by auto. split; auto. split; [discriminate|].
      intros H. exfalso. eapply ks_notin; eauto.
  Qed.
  Lemma vset_emplace_spec : forall s k, ksorted s -> exists s' i b, vset_emplace ltb eqb s k = Some (s', (i, b)) /\
    ksorted s' /\ (forall x, In x s' <-> x = k \/ In x s) /\ nth_error s' i = Some k /\ (b = true <-> ~ In k s) /\
    length s' = (if b then S (length s) else length s).
  Proof.
    intros s k Hs. destruct (ks_split s k Hs) as (l1 & l2 & R & F1 & F2 & D).
    unfold vset_emplace. rewrite R. cbn. destruct D as [->| ->]; rewrite nth_error_mid; cbn.
    - rewrite (proj2 (to_eq _ _ TO k k)) by auto. exists (l1 ++ k :: l2), (length l1), false.
      split; auto. split; auto. split.
      { intros x. split; auto. intros [->|H]; auto. apply in_elt. }
      split; [apply nth_error_mid|]. split; auto. split; [discriminate|]. intros H. exfalso. apply H, in_elt.
    - exists (l1 ++ k :: l2), (length l1), true. split.
      { pose proof (ks_hd l2 k F2) as Hh. rewrite insert_at_mid. destruct l2 as [|e l2]; cbn in *; auto. rewrite Hh. auto. }
      split.
      { apply ksorted_app in Hs. destruct Hs as (S1 & S2 & S3). apply ksorted_app. split; auto.
        split; [apply ksorted_cons; auto|]. intros a b Ha [<-|Hb]; auto. }
      split.
      { intros x. rewrite !in_app_iff. cbn. intuition. }
      split; [apply nth_error_mid|]. split.
      { split; auto. intros _. apply ks_notin; auto. }
      rewrite !app_length. cbn. lia.
  Qed.
  Lemma vset_run_spec : forall ks s, ksorted s -> exists s' bs, vset_run ltb eqb s ks = Some (s', bs) /\
    ksorted s' /\ (forall x, In x s' <-> In x ks \/ In x s) /\ length bs = length ks /\
    (forall i b k, nth_error bs i = Some b -> nth_error ks i = Some k -> (b = true <-> ~ In k (firstn i ks) /\ ~ In k s)).
  Proof.
    induction ks as [|k ks IH]; intros s Hs; cbn [vset_run].
    - exists s, []. split; auto. split; auto. split; [cbn; tauto|]. split; auto. intros [|i]; discriminate.
    - destruct (vset_emplace_spec s k Hs) as (s1 & i1 & b1 & E1 & S1 & I1 & _ & B1 & _).
      rewrite E1. cbn. destruct (IH s1 S1) as (s2 & bs & E2 & S2 & I2 & L2 & B2). rewrite E2. cbn.
      exists s2, (b1 :: bs). split; auto. split; auto. split.
      { intros x. rewrite I2, I1. intuition. }
      split; [cbn; lia|].
      intros [|i] b k' Hb Hk; cbn in *.
      + injection Hb as <-. injection Hk as <-. rewrite B1. tauto.
      + rewrite (B2 i b k' Hb Hk). rewrite I1. intuition.
  Qed.
End SetKeyed.

(** * fut::set *)
Section Fut.
  Variables (H K V : Type) (heqb : H -> H -> bool) (ltb eqb : K -> K -> bool).
  Variable HE : forall a b, heqb a b = true <-> a = b.
  Variable TO : total_order ltb eqb.

  Definition fut_ok (t : list (H * list (K * V))) : Prop := forall h m, In (h, m) t -> msorted K V ltb m.
  Definition flook (t : list (H * list (K * V))) (h : H) (k : K) : option V :=
    match h_find heqb t h with None => None | Some m => assoc eqb m k end.

  Lemma h_find_In : forall (t : list (H * list (K * V))) h m, h_find heqb t h = Some m -> In (h, m) t.
  Proof.
    induction t as [|[h' m'] t IH]; cbn; intros h m E; [discriminate|].
    destruct (heqb h' h) eqn:Eh; auto. apply HE in Eh. subst. injection E as <-. auto.
  Qed.

  Lemma h_with_spec : forall f (g : option V -> option V) (b : option V -> bool) k,
    (forall m, msorted K V ltb m -> exists m', f m = Some (m', b (assoc eqb m k)) /\ msorted K V ltb m' /\
       forall k', assoc eqb m' k' = if eqb k k' then g (assoc eqb m k) else assoc eqb m k') ->
    forall t h, fut_ok t -> exists t', h_with heqb t h f = Some (t', b (flook t h k)) /\ fut_ok t' /\
      forall h' k', flook t' h' k' = if heqb h h' && eqb k k' then g (flook t h k) else flook t h' k'.
  Proof.
    intros f g b k Hf. induction t as [|[h0 m0] t IH]; intros h Hok; cbn.
    - destruct (Hf []) as (m' & E & S' & A'); [constructor|]. rewrite E. cbn.
      exists [(h, m')]. split; auto. split.
      { intros h1 m1 [X|[]]. injection X as <- <-. auto. }
      intros h' k'. unfold flook. cbn. destruct (heqb h h'); cbn; auto. rewrite A'. auto.
    - unfold flook. cbn [h_find]. destruct (heqb h0 h) eqn:E0.
      + apply HE in E0. subst h0. destruct (Hf m0) as (m' & E & S' & A').
        { eapply Hok; left; reflexivity. }
        rewrite E. cbn. exists ((h, m') :: t). split; auto. split.
        { intros h1 m1 [X|X]; [injection X as <- <-; auto|]. eapply Hok; right; eauto. }
        intros h' k'. cbn. destruct (heqb h h') eqn:E1; cbn; [apply A'|reflexivity].
      + destruct (IH h) as (t' & E & O' & A').
        { intros h1 m1 X. eapply Hok; right; eauto. }
        rewrite E. cbn. exists ((h0, m0) :: t'). split; auto. split.
        { intros h1 m1 [X|X]; [injection X as <- <-; eapply Hok; left; eauto|]. eapply O'; eauto. }
        intros h' k'. cbn. specialize (A' h' k'). unfold flook in A'.
        destruct (heqb h0 h') eqn:E1; auto.
        assert (heqb h h' = false) as ->; auto.
        destruct (heqb h h') eqn:E2; auto. apply HE in E1, E2. subst.
        assert (heqb h' h' = true) by (apply HE; auto). congruence.
  Qed.

  Lemma assoc_cons_sp : forall (l l' : list (K * V)) k v k', NoDup (map fst l') ->
    Permutation l' ((k, v) :: without eqb l k) -> NoDup (map fst l) -> assoc eqb l' k' = if eqb k k' then Some v else assoc eqb l k'.
  Proof.
    intros l l' k v k' N1 P N2. rewrite (assoc_perm _ _ _ _ TO _ _ _ N1 P). cbn. destruct (eqb k k') eqn:E; auto.
    clear P N1 l'. induction l as [|[k0 v0] l IH]; cbn; auto. inversion N2; subst.
    destruct (eqb k0 k) eqn:E0; cbn.
    - apply (to_eq _ _ TO) in E0. subst. rewrite E. auto.
    - destruct (eqb k0 k') eqn:E1; auto.
  Qed.

  Lemma fut_emplace_spec : forall t h k v, fut_ok t -> exists t',
    fut_emplace heqb ltb eqb t h k v = Some (t', match flook t h k with Some _ => false | None => true end) /\ fut_ok t' /\
    forall h' k', flook t' h' k' = if heqb h h' && eqb k k' then (match flook t h k with Some w => Some w | None => Some v end) else flook t h' k'.
  Proof.
    intros t h k v Hok. unfold fut_emplace.
    apply (h_with_spec _ (fun o => match o with Some w => Some w | None => Some v end)
             (fun o => match o with Some _ => false | None => true end)); auto.
    intros m Hm. destruct (vm_emplace_spec K V ltb eqb TO m k v Hm) as (m' & i & E & S' & P' & _).
    exists m'. rewrite E. cbn. split; auto. split; auto. intros k'.
    pose proof (msorted_NoDup _ _ _ _ TO _ Hm) as N. pose proof (msorted_NoDup _ _ _ _ TO _ S') as N'.
    rewrite (assoc_perm _ _ _ _ TO _ _ k' N' P'). destruct (assoc eqb m k) as [w|] eqn:Ea; cbn; auto.
    destruct (eqb k k') eqn:Ek; auto. apply (to_eq _ _ TO) in Ek. subst. auto.
  Qed.
  Lemma fut_assign_spec : forall t h k v, fut_ok t -> exists t',
    fut_assign heqb ltb eqb t h k v = Some (t', match flook t h k with Some _ => false | None => true end) /\ fut_ok t' /\
    forall h' k', flook t' h' k' = if heqb h h' && eqb k k' then Some v else flook t h' k'.
  Proof.
    intros t h k v Hok. unfold fut_assign.
    apply (h_with_spec _ (fun o => Some v)
             (fun o => match o with Some _ => false | None => true end)); auto.
    intros m Hm. destruct (vm_assign_spec K V ltb eqb TO m k v Hm) as (m' & i & E & S' & P' & _).
    exists m'. rewrite E. cbn. split; auto. split; auto. intros k'.
    apply assoc_cons_sp; auto; apply (msorted_NoDup _ _ _ _ TO); auto.
  Qed.

  Lemma fut_look_spec : forall t h k, fut_ok t -> fut_get heqb ltb eqb t h k = Some (flook t h k) /\
    fut_contains heqb ltb eqb t h k = Some (match flook t h k with Some _ => true | None => false end).
  Proof.
    intros t h k Hok. unfold fut_get, fut_contains, flook. destruct (h_find heqb t h) as [m|] eqn:E; auto.
    apply h_find_In in E. apply Hok in E. apply vm_get_assoc; auto.
  Qed.

  Lemma fut_run_spec : forall cs, exists t, fut_run heqb ltb eqb cs = Some t /\ fut_ok t /\
    forall h k, flook t h k = tk_run heqb eqb cs h k.
  Proof.
    unfold fut_run, tk_run.
    assert (G : forall cs t (s : H -> K -> option V), fut_ok t -> (forall h k, flook t h k = s h k) ->
      exists t', ofold (fut_do heqb ltb eqb) cs t = Some t' /\ fut_ok t' /\
      forall h k, flook t' h k = fold_left (tk_do heqb eqb) cs s h k).
    { induction cs as [|c cs IH]; intros t s Hok Hs; cbn [ofold fold_left].
      - exists t. auto.
      - assert (D : exists t1, fut_do heqb ltb eqb t c = Some t1 /\ fut_ok t1 /\ forall h k, flook t1 h k = tk_do heqb eqb s c h k).
        { destruct c as [h k v|h k v|]; cbn.
          - destruct (fut_emplace_spec t h k v Hok) as (t1 & E & O1 & L1). rewrite E. cbn. exists t1. split; auto. split; auto.
            intros h' k'. rewrite L1, !Hs. auto.
          - destruct (fut_assign_spec t h k v Hok) as (t1 & E & O1 & L1). rewrite E. cbn. exists t1. split; auto. split; auto.
            intros h' k'. rewrite L1, !Hs. auto.
          - exists []. split; auto. split; auto. intros h m []. }
        destruct D as (t1 & E & O1 & L1). rewrite E. cbn. apply IH; auto. }
    intros cs. apply (G cs [] (fun _ _ => None)); auto. intros h m [].
  Qed.
End Fut.

(** * labels_t *)
Lemma label_vec_ssorted : forall all v, label_vec all v <-> ssorted v /\ (forall l, In l v -> l < all).
Proof.
  intros all v. unfold label_vec. split.
  - intros [H1 H2]. split; auto. clear H2. induction v as [|x v IH]; [constructor|].
    apply ssorted_cons. split.
    + apply IH. intros i j a b Hij Ha Hb. apply (H1 (S i) (S j)); auto; lia.
    + intros y Hy. apply In_nth_error in Hy. destruct Hy as [j Hj]. apply (H1 0 (S j)); auto; lia.
  - intros [H1 H2]. split; auto. clear H2. induction v as [|x v IH]; intros i j a b Hij Ha Hb.
    + destruct i; discriminate.
    + apply ssorted_cons in H1. destruct H1 as [H1 Hx]. destruct j as [|j]; [lia|]. cbn in Hb.
      destruct i as [|i]; cbn in Ha.
      * injection Ha as <-. apply Hx. eapply nth_error_In; eauto.
      * apply (IH H1 i j); auto; lia.
Qed.

Lemma ssorted_tail : forall x l, ssorted (x :: l) -> ssorted l.
Proof. intros x l H. apply ssorted_cons in H. tauto. Qed.
Lemma drop_while_ssorted : forall p l, ssorted l -> ssorted (drop_while p l).
Proof.
  induction l as [|x l IH]; cbn; intros H; auto. destruct (p x); auto. apply IH. eapply ssorted_tail; eauto.
Qed.
Lemma drop_lt_In : forall x l z, ssorted l -> x <= z -> (In z (drop_while (fun y => Nat.ltb y x) l) <-> In z l).
Proof.
  induction l as [|y l IH]; cbn; intros z Hs Hz; [tauto|].
  destruct (y <? x) eqn:E; cbn; [|tauto]. apply Nat.ltb_lt in E. rewrite IH; auto; [|eapply ssorted_tail; eauto].
  split; auto. intros [->|?]; auto; lia.
Qed.

Lemma keep_spec : forall ls fit, ssorted ls -> ssorted fit ->
  (forall z, In z (keep_useful ls fit) <-> In z ls /\ In z fit) /\ ssorted (keep_useful ls fit).
Proof.
  induction ls as [|x ls IH]; intros fit Hl Hf; cbn.
  - split; [cbn; tauto|auto].
  - apply ssorted_cons in Hl. destruct Hl as [Hl Hx].
    pose proof (drop_while_ssorted (fun y => y <? x) fit Hf) as Hd.
    pose proof (fun z => drop_lt_In x fit z Hf) as Hin.
    destruct (IH _ Hl Hd) as [I1 I2].
    assert (I3 : forall z, In z (keep_useful ls (drop_while (fun y => y <? x) fit)) <-> In z ls /\ In z fit).
    { intros z. rewrite I1. split; intros [A B]; split; auto; apply Hin; auto; apply Hx in A; lia. }
    destruct (drop_while (fun y => y <? x) fit) as [|y d] eqn:Ed.
    + split; auto. intros z. rewrite I3. split; [tauto|]. intros [[->|A] B]; auto. apply Hin in B; [destruct B|lia].
    + assert (Hy : x <= y).
      { clear -Ed. induction fit as [|w fit IH]; cbn in Ed; [discriminate|].
        destruct (w <? x) eqn:E; auto. injection Ed as <- <-. apply Nat.ltb_ge in E. auto. }
      destruct (Nat.eqb y x) eqn:Eq.
      * apply Nat.eqb_eq in Eq. subst y. split.
        { intros z. cbn. rewrite I3. split.
          - intros [->|[A B]]; auto. split; auto. apply (Hin z); [lia|]. left; auto.
          - intros [[->|A] B]; auto. }
        { apply ssorted_cons. split; auto. intros z Hz. apply I3 in Hz. apply Hx. tauto. }
      * apply Nat.eqb_neq in Eq. split; auto. intros z. rewrite I3. split; [tauto|].
        intros [[->|A] B]; auto. exfalso. apply Hin in B; [|lia]. apply ssorted_cons in Hd. destruct Hd as [Hd Hyd].
        destruct B as [B|B]; [lia|]. apply Hyd in B. lia.
Qed.
Lemma keep_useful_nil : forall ls, keep_useful ls [] = [].
Proof. induction ls; cbn; auto. Qed.
Lemma keep_common_useful : forall ls fit, keep_common ls fit = keep_useful ls fit.
Proof.
  induction ls as [|x ls IH]; intros fit; cbn; auto.
  destruct (drop_while (fun y => y <? x) fit) as [|y d].
  - symmetry. apply keep_useful_nil.
  - destruct (Nat.eqb y x); rewrite IH; auto.
Qed.
Lemma keep_useful_length : forall ls fit, length (keep_useful ls fit) <= length ls.
Proof.
  induction ls as [|x ls IH]; intros fit; cbn; auto.
  destruct (drop_while (fun y => y <? x) fit) as [|y d]; [|destruct (Nat.eqb y x)]; cbn; try (apply le_n_S; auto);
    (eapply Nat.le_trans; [apply IH|lia]).
Qed.
Lemma keep_useful_full : forall ls fit, length (keep_useful ls fit) = length ls -> keep_useful ls fit = ls.
Proof.
  induction ls as [|x ls IH]; intros fit; cbn; auto.
  destruct (drop_while (fun y => y <? x) fit) as [|y d].
  - intros H. pose proof (keep_useful_length ls []). lia.
  - destruct (Nat.eqb y x); cbn; intros H.
    + f_equal. apply IH. lia.
    + pose proof (keep_useful_length ls (y :: d)). lia.
Qed.

(** A strictly increasing vector over 0..all-1 with all elements is the whole alphabet. *)
Lemma ssorted_NoDup : forall v, ssorted v -> NoDup v.
Proof.
  induction v as [|x v IH]; intros H; constructor; apply ssorted_cons in H; destruct H as [H1 H2]; auto.
  intros Hx. apply H2 in Hx. lia.
Qed.
Lemma full_vec : forall all v, ssorted v -> (forall l, In l v -> l < all) -> length v = all -> forall l, l < all -> In l v.
Proof.
  intros all v H1 H2 H3 l Hl.
  assert (I : incl (seq 0 all) v); [|apply I, in_seq; lia].
  apply NoDup_length_incl; [apply ssorted_NoDup; auto| |].
  - rewrite seq_length. lia.
  - intros x Hx. apply in_seq. apply H2 in Hx. lia.
Qed.
Lemma sub_vec_length : forall all v l, ssorted v -> (forall x, In x v -> x < all) -> l < all -> ~ In l v -> length v < all.
Proof.
  intros all v l H1 H2 H3 H4. destruct (Nat.eq_dec (length v) all) as [E|E].
  - exfalso. apply H4. eapply full_vec; eauto.
  - assert (length v <= length (seq 0 all)).
    { apply NoDup_incl_length; [apply ssorted_NoDup; auto|]. intros x Hx. apply in_seq. apply H2 in Hx. lia. }
    rewrite seq_length in H. lia.
Qed.

(** Representation invariant. *)
Definition lrep (all : nat) (ls : labels) : Prop := label_vec all (labs ls) /\ (wild ls = true -> labs ls = []).

Lemma lrep_matches_lt : forall all ls l, lrep all ls -> matches all ls l -> l < all.
Proof. intros all ls l [[_ H] _] Hm. unfold matches in Hm. destruct (wild ls); auto. Qed.

Lemma labels_empty_spec : forall all ls, lrep all ls -> 0 < all -> (labels_empty ls = false <-> exists l, matches all ls l).
Proof.
  intros all ls [R1 R2] Ha. unfold labels_empty, matches. destruct (wild ls); cbn.
  - split; [exists 0; auto|auto].
  - destruct (labs ls) as [|x v]; split; auto; [discriminate|intros [l []]|]. exists x. left; auto.
Qed.

Lemma intersect_spec : forall all ls other, lrep all ls -> label_vec all other -> 0 < all ->
  exists ls' b, intersect ls other all = Some (ls', b) /\ lrep all ls' /\
    (forall l, matches all ls' l <-> matches all ls l /\ In l other) /\ (b = true <-> exists l, matches all ls' l).
Proof.
  intros all ls other Hr Ho Ha.
  assert (Hb : forall ls', lrep all ls' -> (negb (labels_empty ls') = true <-> exists l, matches all ls' l)).
  { intros ls' Hr'. rewrite <- labels_empty_spec by eauto. destruct (labels_empty ls'); cbn; split; congruence. }
  unfold intersect. destruct (Nat.eqb (length other) all) eqn:E.
  - apply Nat.eqb_eq in E. exists ls, (negb (labels_empty ls)). split; auto. split; auto. split; auto.
    intros l. split; [|tauto]. intros H. split; auto. apply label_vec_ssorted in Ho. destruct Ho.
    eapply full_vec; eauto. eapply lrep_matches_lt; eauto.
  - apply Nat.eqb_neq in E. destruct (wild ls) eqn:W.
    + eexists _, _. split; [reflexivity|]. assert (Hr' : lrep all (mk_labels false other)) by (split; [auto|cbn; discriminate]).
      split; auto. split; auto. intros l. unfold matches. rewrite W. cbn. destruct Ho as [_ Ho]. split; auto. tauto.
    + destruct Hr as [Hr _]. apply label_vec_ssorted in Hr, Ho. destruct Hr as [R1 R2], Ho as [O1 O2].
      rewrite keep_common_useful. destruct (keep_spec (labs ls) other R1 O1) as [K1 K2]. cbn [labs].
      assert (Hlt : forall l, In l (keep_useful (labs ls) other) -> l < all) by (intros l Hl; apply K1 in Hl; apply R2; tauto).
      destruct (Nat.eqb (length (keep_useful (labs ls) other)) all) eqn:E2.
      { exfalso. apply Nat.eqb_eq in E2. apply E.
        assert (Hf : forall l, l < all -> In l other).
        { intros l Hl. apply (K1 l). eapply full_vec; eauto. }
        destruct (le_lt_dec (length other) all) as [Hle|Hgt].
        - assert (all <= length other); [|lia]. rewrite <- (seq_length all 0) at 1. apply NoDup_incl_length; [apply seq_NoDup|].
          intros x Hx. apply in_seq in Hx. apply Hf. lia.
        - assert (length other <= length (seq 0 all)); [|rewrite seq_length in H; lia].
          apply NoDup_incl_length; [apply ssorted_NoDup; auto|]. intros x Hx. apply in_seq. apply O2 in Hx. lia. }
      eexists _, _. split; [reflexivity|].
      assert (Hr' : lrep all (mk_labels false (keep_useful (labs ls) other))).
      { split; [apply label_vec_ssorted; auto|cbn; discriminate]. }
      split; auto. split; auto. intros l. unfold matches. rewrite W. cbn. apply K1.
Qed.

Lemma noop_pre_filter_spec : forall all ls useful, lrep all ls -> label_vec all useful ->
  let r := noop_pre_filter ls useful in lrep all (fst r) /\ (forall l, matches all (fst r) l <-> matches all ls l /\ In l useful) /\
  (snd r = false <-> fst r = ls).
Proof.
  intros all ls useful [Hr Hw] Hu. unfold noop_pre_filter. destruct (wild ls) eqn:W; cbn.
  - rewrite (Hw eq_refl), app_nil_r. split; [split; [auto|discriminate]|]. split.
    + intros l. unfold matches. rewrite W. cbn. destruct Hu as [_ Hu]. split; auto. tauto.
    + split; [discriminate|]. intros H. exfalso. assert (wild ls = false) by (rewrite <- H; auto). congruence.
  - apply label_vec_ssorted in Hr, Hu. destruct Hr as [R1 R2], Hu as [O1 O2].
    destruct (keep_spec (labs ls) useful R1 O1) as [K1 K2].
    destruct (Nat.eqb (length (keep_useful (labs ls) useful)) (length (labs ls))) eqn:E; cbn.
    + apply Nat.eqb_eq in E. apply keep_useful_full in E. split; [split; [apply label_vec_ssorted; auto|congruence]|]. split; [|tauto].
      intros l. unfold matches. rewrite W. rewrite <- E at 1. apply K1.
    + split; [split; [apply label_vec_ssorted; split; auto; cbn; intros l Hl; apply K1 in Hl; apply R2; tauto|cbn; discriminate]|]. split.
      * intros l. unfold matches. rewrite W. cbn. apply K1.
      * split; [discriminate|]. intros H. exfalso. apply Nat.eqb_neq in E. apply E. rewrite <- H at 2. auto.
Qed.

Lemma merge_spec : forall all ls w other, lrep all ls -> label_vec all other ->
  lrep all (merge ls w other) /\ forall l, matches all (merge ls w other) l <-> matches all ls l \/ (if w then l < all else In l other).
Proof.
  intros all ls w other [Hr Hw] Ho. unfold merge. destruct (wild ls) eqn:W.
  - split; [split; auto|]. intros l. unfold matches. rewrite W. split; auto. destruct w; intros [H|H]; auto. apply Ho; auto.
  - destruct w.
    + split; [split; [split; [intros [|i]; discriminate|intros l []]|auto]|]. intros l. unfold matches. rewrite W. cbn.
      split; auto. intros [H|H]; auto. apply Hr; auto.
    + apply label_vec_ssorted in Hr, Ho. destruct Hr as [R1 R2], Ho as [O1 O2]. split.
      * split; [|cbn; discriminate]. apply label_vec_ssorted. cbn. split; [apply set_union_ssorted; auto|].
        intros l Hl. apply set_union_In in Hl. destruct Hl; auto.
      * intros l. unfold matches. rewrite W. cbn. apply set_union_In.
Qed.

Lemma do_lcalls_spec : forall all cs, 0 < all -> Forall (lcall_ok all) cs ->
  exists ls, do_lcalls all cs = Some ls /\ lrep all ls /\ forall l, matches all ls l <-> lspec all cs l.
Proof.
  intros all cs Ha. unfold do_lcalls, lspec.
  assert (G : forall cs ls (s : lset), lrep all ls -> (forall l, matches all ls l <-> s l) -> Forall (lcall_ok all) cs ->
    exists ls', ofold (do_lcall all) cs ls = Some ls' /\ lrep all ls' /\
      forall l, matches all ls' l <-> fold_left (lspec_do all) cs s l).
  { clear cs. induction cs as [|c cs IH]; intros ls s Hr Hs Hc; cbn [ofold fold_left]; [exists ls; auto|].
    inversion Hc as [|? ? Hc1 Hc2]; subst.
    assert (D : exists ls1, do_lcall all ls c = Some ls1 /\ lrep all ls1 /\ forall l, matches all ls1 l <-> lspec_do all s c l).
    { destruct c as [w v|v|v|]; cbn in *.
      - destruct (merge_spec all ls w v Hr Hc1) as [M1 M2]. eexists; split; [reflexivity|]. split; auto.
        intros l. rewrite M2. destruct w; rewrite Hs; [|tauto]. split; auto. intros [H|H]; auto.
        apply Hs in H. apply (lrep_matches_lt all ls); auto.
      - destruct (intersect_spec all ls v Hr Hc1 Ha) as (ls' & b & E & R' & M & _). rewrite E. cbn.
        eexists; split; [reflexivity|]. split; auto. intros l. rewrite M, Hs. tauto.
      - destruct (noop_pre_filter_spec all ls v Hr Hc1) as (R' & M & _).
        eexists; split; [reflexivity|]. split; auto. intros l. rewrite M, Hs. tauto.
      - exists no_labels. split; auto. split; [split; [split; [intros [|i]; discriminate|intros l []]|auto]|].
        intros l. unfold matches. cbn. tauto. }
    destruct D as (ls1 & E & R1 & M1). rewrite E. cbn. apply IH; auto. }
  intros Hc. apply G; auto.
  - split; [split; [intros [|i]; discriminate|intros l []]|auto].
  - intros l. unfold matches. cbn. tauto.
Qed.

Lemma nat_total_order : total_order Nat.ltb Nat.eqb.
Proof.
  constructor; intros.
  - apply Nat.eqb_eq.
  - apply Nat.ltb_irrefl.
  - rewrite Nat.ltb_lt in *. lia.
  - rewrite !Nat.ltb_lt. lia.
Qed.
Lemma rule_total_order : total_order rule_ltb rule_eqb.
Proof.
  constructor; intros.
  - apply rule_eqb_eq.
  - apply rule_ltb_false. auto.
  - rewrite rule_ltb_spec in *. eapply rlt_trans; eauto.
  - rewrite !rule_ltb_spec. apply rlt_total.
Qed.

Lemma contains_bin_spec : forall all ls l, lrep all ls -> l < all ->
  contains_bin ls l = Some (contains ls l) /\ (contains ls l = true <-> matches all ls l).
Proof.
  intros all ls l [Hr Hw] Hl. apply label_vec_ssorted in Hr. destruct Hr as [R1 R2].
  unfold contains_bin, contains, matches. destruct (wild ls); [split; tauto|].
  destruct (vset_contains_spec nat Nat.ltb Nat.eqb nat_total_order (labs ls) l) as (b & E & B).
  { unfold ssorted in R1. clear -R1. induction R1; constructor; auto. eapply Forall_impl; [|apply H]. intros b. apply Nat.ltb_lt. }
  pose proof (sorted_mem_In l (labs ls) R1) as M. rewrite E. split; [|auto].
  f_equal. apply Bool.eq_true_iff_eq. tauto.
Qed.

(** * is_disjoint *)
Section Disjoint.
  Variables (T U K : Type) (kt : T -> K) (ku : U -> K) (lt : K -> K -> bool).
  (** [lt] is a strict weak order. *)
  Hypothesis lt_asym : forall a b, lt a b = true -> lt b a = false.
  Hypothesis lt_negtrans : forall a b c, lt a c = true -> lt a b = true \/ lt b c = true.
  Notation lt_tu := (fun x y => lt (kt x) (ku y)).
  Notation lt_ut := (fun y x => lt (ku y) (kt x)).

  Definition wsorted {A} (key : A -> K) (l : list A) : Prop :=
    forall i j x y, i < j -> nth_error l i = Some x -> nth_error l j = Some y -> lt (key y) (key x) = false.

  Lemma lbf_spec : forall A (key : A -> K) (l : list A) (c : K) i, wsorted key l -> i <= length l ->
    exists r, lower_bound_from (fun z => lt (key z) c) l i = Some r /\ i <= r <= length l /\
      (forall j x, i <= j < r -> nth_error l j = Some x -> lt (key x) c = true).
  Proof.
    intros A key l c i Hs Hi.
    destruct (lb_loop_spec A (fun z => lt (key z) c) l (length l - i) i (length l - i)) as (r & R1 & R2 & R3 & _); try lia.
    - intros a b x y Ha Hab Hx Hy Hp. destruct (Nat.eq_dec a b) as [->|N]; [congruence|].
      assert (L : lt (key y) (key x) = false) by (apply (Hs a b); auto; lia).
      destruct (lt_negtrans (key y) (key x) c Hp); auto. congruence.
    - exists r. split; auto. split; [lia|]. intros j x Hj. apply R3. lia.
  Qed.

  Lemma disj_loop_spec : forall a b fuel ia ib, wsorted kt a -> wsorted ku b ->
    ia <= length a -> ib <= length b -> (length a - ia) + (length b - ib) < fuel ->
    (forall i j x y, nth_error a i = Some x -> nth_error b j = Some y -> lt (kt x) (ku y) = false -> lt (ku y) (kt x) = false -> ia <= i /\ ib <= j) ->
    exists r, disj_loop lt_tu lt_ut a b fuel ia ib = Some (Some r) /\
      (r = true <-> forall x y, In x a -> In y b -> lt (kt x) (ku y) = true \/ lt (ku y) (kt x) = true).
  Proof.
    intros a b. induction fuel as [|fuel IH]; intros ia ib Sa Sb La Lb Hf Hinv; [lia|]. cbn.
    destruct (ia <? length a) eqn:Ea; cbn.
    2:{ apply Nat.ltb_ge in Ea. exists true. split; auto. split; auto. intros _ x y Hx Hy.
        apply In_nth_error in Hx, Hy. destruct Hx as [i Hi], Hy as [j Hj].
        destruct (lt (kt x) (ku y)) eqn:E1; auto. destruct (lt (ku y) (kt x)) eqn:E2; auto.
        destruct (Hinv i j x y Hi Hj E1 E2). apply nth_error_lt in Hi. lia. }
    destruct (ib <? length b) eqn:Eb; cbn.
    2:{ apply Nat.ltb_ge in Eb. exists true. split; auto. split; auto. intros _ x y Hx Hy.
        apply In_nth_error in Hx, Hy. destruct Hx as [i Hi], Hy as [j Hj].
        destruct (lt (kt x) (ku y)) eqn:E1; auto. destruct (lt (ku y) (kt x)) eqn:E2; auto.
        destruct (Hinv i j x y Hi Hj E1 E2). apply nth_error_lt in Hj. lia. }
    apply Nat.ltb_lt in Ea, Eb.
    destruct (nth_error_ex _ a ia Ea) as [x Hx]. destruct (nth_error_ex _ b ib Eb) as [y Hy]. rewrite Hx, Hy. cbn.
    assert (Wa : forall i z, ia <= i -> nth_error a i = Some z -> lt (kt z) (kt x) = false).
    { intros i z Hi Hz. destruct (Nat.eq_dec ia i) as [->|N].
      - assert (z = x) by congruence. subst. destruct (lt (kt x) (kt x)) eqn:E; auto. apply lt_asym in E as E'. congruence.
      - apply (Sa ia i); auto; lia. }
    assert (Wb : forall i z, ib <= i -> nth_error b i = Some z -> lt (ku z) (ku y) = false).
    { intros i z Hi Hz. destruct (Nat.eq_dec ib i) as [->|N].
      - assert (z = y) by congruence. subst. destruct (lt (ku y) (ku y)) eqn:E; auto. apply lt_asym in E as E'. congruence.
      - apply (Sb ib i); auto; lia. }
    destruct (lt (kt x) (ku y)) eqn:E1.
    - destruct (lbf_spec T kt a (ku y) (S ia) Sa) as (r & R1 & R2 & R3); [lia|].
      rewrite R1. cbn. apply IH; auto; try lia.
      intros i j x' y' Hi Hj N1 N2. destruct (Hinv i j x' y' Hi Hj N1 N2) as [I1 I2]. split; auto.
      destruct (le_lt_dec r i) as [|Hlt]; auto. exfalso.
      assert (L : lt (kt x') (ku y) = true).
      { destruct (Nat.eq_dec i ia) as [->|N]; [congruence|]. apply (R3 i); auto; lia. }
      destruct (lt_negtrans _ (ku y') _ L) as [L'|L']; [congruence|].
      rewrite (Wb j y') in L'; auto; discriminate.
    - destruct (lt (ku y) (kt x)) eqn:E2.
      + destruct (lbf_spec U ku b (kt x) (S ib) Sb) as (r & R1 & R2 & R3); [lia|].
        rewrite R1. cbn. apply IH; auto; try lia.
        intros i j x' y' Hi Hj N1 N2. destruct (Hinv i j x' y' Hi Hj N1 N2) as [I1 I2]. split; auto.
        destruct (le_lt_dec r j) as [|Hlt]; auto. exfalso.
        assert (L : lt (ku y') (kt x) = true).
        { destruct (Nat.eq_dec j ib) as [->|N]; [congruence|]. apply (R3 j); auto; lia. }
        destruct (lt_negtrans _ (kt x') _ L) as [L'|L']; [congruence|].
        rewrite (Wa i x') in L'; auto; discriminate.
      + exists false. split; auto. split; [discriminate|]. intros H. exfalso.
        destruct (H x y); [eapply nth_error_In; eauto|eapply nth_error_In; eauto| |]; congruence.
  Qed.

  Lemma is_disjoint_spec : forall a b, wsorted kt a -> wsorted ku b ->
    exists r, is_disjoint lt_tu lt_ut a b = Some (Some r) /\
      (r = true <-> forall x y, In x a -> In y b -> lt (kt x) (ku y) = true \/ lt (ku y) (kt x) = true).
  Proof.
    intros a b Sa Sb. apply disj_loop_spec; auto; try lia.
  Qed.
End Disjoint.
