(** RefinementMapping and AbstractionMapping. *)
From Coq Require Import List Arith Lia Bool Permutation Sorted.
From Verif Require Import Base BaseFacts SpecFacts PdaModel PdaProof NfaModel NfaProof ConstructProof NfaQueryModel NfaQueryProof ContainersModel ContainersProof
  TrieModel RefineModel.
Import ListNotations.

(** *** Tries *)
Section Trie.
  Variables (K : Type) (eqb : K -> K -> bool).
  Hypothesis eqb_ok : forall a b, eqb a b = true <-> a = b.
  Lemma tr_index_Some : forall l k i, tr_index eqb l k = Some i -> nth_error l i = Some k.
  Proof.
    induction l as [|x l IH]; intros k i H; cbn in H; [discriminate|]. destruct (eqb x k) eqn:E.
    - injection H as <-. apply eqb_ok in E. subst. reflexivity.
    - destruct (tr_index eqb l k) eqn:E1; cbn in H; [|discriminate]. injection H as <-. cbn. auto.
  Qed.
  Lemma tr_index_None : forall l k, tr_index eqb l k = None <-> ~ In k l.
  Proof.
    induction l as [|x l IH]; intros k; cbn; [tauto|]. destruct (eqb x k) eqn:E.
    - apply eqb_ok in E. split; [discriminate|]. tauto.
    - destruct (tr_index eqb l k) eqn:E1; cbn.
      + split; [discriminate|]. intros H. exfalso. apply H. right. apply nth_error_In with n. apply tr_index_Some; auto.
      + apply IH in E1. split; auto. intros _ [H|H]; [|auto]. apply eqb_ok in H. congruence.
  Qed.
  Lemma tr_index_nth : forall l k i, NoDup l -> nth_error l i = Some k -> tr_index eqb l k = Some i.
  Proof.
    intros l k i N H. destruct (tr_index eqb l k) as [j|] eqn:E.
    - f_equal. apply (proj1 (NoDup_nth_error l) N); [|].
      + apply tr_index_Some in E. eapply nth_error_lt; eauto.
      + apply tr_index_Some in E. congruence.
    - apply tr_index_None in E. exfalso. apply E. eapply nth_error_In; eauto.
  Qed.
  Lemma tr_index_iff : forall l k i, NoDup l -> (tr_index eqb l k = Some i <-> nth_error l i = Some k).
  Proof. intros. split; [apply tr_index_Some|apply tr_index_nth; auto]. Qed.
  Lemma ts_insert_spec : forall l k l' b i, ts_insert eqb l k = (l', (b, i)) -> NoDup l ->
    NoDup l' /\ nth_error l' i = Some k /\ (b = true <-> ~ In k l) /\ l' = (if b then l ++ [k] else l) /\ (b = true -> i = length l).
  Proof.
    intros l k l' b i H N. unfold ts_insert in H. destruct (tr_index eqb l k) eqn:E; injection H as <- <- <-.
    - apply tr_index_Some in E. ands; auto; try discriminate. split; [discriminate|]. intros H. exfalso. apply H. eapply nth_error_In; eauto.
    - apply tr_index_None in E. ands; auto.
      + apply NoDup_app_snoc; auto.
      + rewrite nth_error_app2, Nat.sub_diag; auto.
      + tauto.
  Qed.
End Trie.

Lemma omap_Some : forall A B (f : A -> option B) (g : A -> B) l, (forall x, In x l -> f x = Some (g x)) -> omap f l = Some (map g l).
Proof. induction l as [|x l IH]; intros H; cbn; auto. rewrite H; cbn; auto. rewrite IH; cbn; auto. intros. apply H. cbn. auto. Qed.
Lemma omap_inv : forall A B (f : A -> option B) l r, omap f l = Some r -> Forall2 (fun x y => f x = Some y) l r.
Proof.
  induction l as [|x l IH]; intros r H; cbn in H; [injection H as <-; constructor|].
  destruct (f x) eqn:E; cbn in H; [|discriminate]. destruct (omap f l) eqn:E1; cbn in H; [|discriminate]. injection H as <-. constructor; auto.
Qed.
Lemma omap_def : forall A B (f : A -> option B) l, (forall x, In x l -> f x <> None) -> exists r, omap f l = Some r.
Proof.
  induction l as [|x l IH]; intros H; cbn; eauto. destruct (f x) eqn:E; cbn.
  - destruct IH as [r ->]; cbn; eauto. intros y Hy. apply H. cbn. auto.
  - exfalso. apply (H x); cbn; auto.
Qed.
Lemma omap_In : forall A B (f : A -> option B) l r y, omap f l = Some r -> (In y r <-> exists x, In x l /\ f x = Some y).
Proof.
  intros A B f l r y H. apply omap_inv in H. induction H as [|x z l r E H IH]; cbn.
  - split; [tauto|]. intros (x & [] & _).
  - rewrite IH. split.
    + intros [->|(u & H1 & H2)]; eauto.
    + intros (u & [->|H1] & H2); eauto. left. congruence.
Qed.

(** *** Sorting *)
Lemma ins_nat_perm : forall x l, Permutation (ins_nat x l) (x :: l).
Proof.
  induction l as [|y l IH]; cbn; auto. destruct (Nat.ltb y x); auto. eapply perm_trans; [apply perm_skip; apply IH|]. apply perm_swap.
Qed.
Lemma sort_nat_perm : forall l, Permutation (sort_nat l) l.
Proof. induction l as [|x l IH]; cbn; auto. eapply perm_trans; [apply ins_nat_perm|]. auto. Qed.
Lemma sort_nat_In : forall l x, In x (sort_nat l) <-> In x l.
Proof. intros. split; apply Permutation_in; [|apply Permutation_sym]; apply sort_nat_perm. Qed.
Lemma ins_nat_sorted : forall x l, StronglySorted le l -> StronglySorted le (ins_nat x l).
Proof.
  induction l as [|y l IH]; intros H; cbn; [repeat constructor|]. inversion H; subst. destruct (Nat.ltb y x) eqn:E.
  - constructor; auto. apply Forall_forall. intros z Hz. apply (Permutation_in _ (ins_nat_perm x l)) in Hz. apply Nat.ltb_lt in E.
    destruct Hz as [<-|Hz]; [lia|]. rewrite Forall_forall in H3. auto.
  - apply Nat.ltb_ge in E. constructor; auto. constructor; auto. rewrite Forall_forall in *. intros z Hz. apply H3 in Hz. lia.
Qed.
Lemma sort_nat_sorted : forall l, StronglySorted le (sort_nat l).
Proof. induction l as [|x l IH]; cbn; [constructor|]. apply ins_nat_sorted; auto. Qed.
Lemma le_NoDup_ssorted : forall l, StronglySorted le l -> NoDup l -> ssorted l.
Proof.
  induction l as [|x l IH]; intros H N; [constructor|]. inversion H; inversion N; subst. constructor; [apply IH; auto|].
  rewrite Forall_forall in *. intros y Hy. assert (x <> y) by congruence. apply H3 in Hy. lia.
Qed.
Lemma sort_nat_ssorted : forall l, NoDup l -> ssorted (sort_nat l).
Proof.
  intros l N. apply le_NoDup_ssorted; [apply sort_nat_sorted|]. eapply Permutation_NoDup; [apply Permutation_sym, sort_nat_perm|auto].
Qed.
Lemma sort_nat_id : forall l, StronglySorted le l -> sort_nat l = l.
Proof.
  induction l as [|x l IH]; intros H; auto. inversion H; subst. change (ins_nat x (sort_nat l) = x :: l). rewrite IH; auto. destruct l as [|y l]; cbn; auto.
  destruct (Nat.ltb y x) eqn:E; auto. apply Nat.ltb_lt in E. inversion H3; subst. lia.
Qed.
Lemma filter_ssorted : forall f l, ssorted l -> ssorted (filter f l).
Proof.
  induction l as [|x l IH]; intros H; cbn; auto. inversion H; subst. destruct (f x); [|apply IH; auto].
  constructor; [apply IH; auto|]. rewrite Forall_forall in *. intros y Hy. apply filter_In in Hy. apply H3. tauto.
Qed.
Lemma set_diff_In : forall a b, ssorted a -> ssorted b -> forall x, In x (set_diff a b) <-> In x a /\ ~ In x b.
Proof.
  intros a b Ha Hb x. rewrite set_diff_filter; auto. rewrite filter_In. rewrite negb_true_iff. rewrite <- (sorted_mem_In x b); auto.
  destruct (sorted_mem x b); intuition congruence.
Qed.
Lemma set_inter_In : forall a b, ssorted a -> ssorted b -> forall x, In x (set_inter a b) <-> In x a /\ In x b.
Proof.
  intros a b Ha Hb x. rewrite set_inter_filter; auto. rewrite filter_In. rewrite <- (sorted_mem_In x b); auto. tauto.
Qed.
Lemma set_diff_ssorted : forall a b, ssorted a -> ssorted b -> ssorted (set_diff a b).
Proof. intros. rewrite set_diff_filter; auto. apply filter_ssorted; auto. Qed.
Lemma set_inter_ssorted : forall a b, ssorted a -> ssorted b -> ssorted (set_inter a b).
Proof. intros. rewrite set_inter_filter; auto. apply filter_ssorted; auto. Qed.

Lemma NoDup_app_parts : forall A (a b : list A), NoDup (a ++ b) -> NoDup a /\ NoDup b /\ forall x, In x a -> ~ In x b.
Proof.
  induction a as [|x a IH]; intros b H; cbn in *; [ands; auto; constructor|]. inversion H; subst. destruct (IH b H3) as (H4 & H5 & H6).
  ands; auto.
  - constructor; auto. intros Hx. apply H2. apply in_or_app. auto.
  - intros y [->|Hy]; auto. intros Hb. apply H2. apply in_or_app. auto.
Qed.

(** *** The mapping *)
Notation dat m := (tm_data (rm_map m)).
Notation keys m := (map fst (rm_map m)).
(** The buckets and the data of the map say the same. *)
Record RI (m : rmap) : Prop := mk_RI {
  ri_keys : NoDup (keys m);
  ri_bucket : forall a ks, nth_error (rm_ids m) a = Some ks -> NoDup ks /\ forall k, In k ks <-> dat m k = Some a;
  ri_lt : forall k a, dat m k = Some a -> a < rm_size m
}.
Lemma Nat_eqb_ok : forall a b, Nat.eqb a b = true <-> a = b.
Proof. intros. apply Nat.eqb_eq. Qed.
Lemma tm_data_lt : forall D (m : list (nat * D)) k, k < length m <-> exists a, tm_data m k = Some a.
Proof.
  intros D m k. unfold tm_data. split.
  - intros H. apply nth_error_ex in H. destruct H as [e ->]. cbn. eauto.
  - intros [a H]. destruct (nth_error m k) eqn:E; [|discriminate]. eapply nth_error_lt; eauto.
Qed.
Lemma tm_at_keys : forall D (m : list (nat * D)) k, tm_at m k = nth_error (map fst m) k.
Proof. intros. unfold tm_at. rewrite nth_error_map. reflexivity. Qed.
Lemma rm_exists_iff : forall m x a, NoDup (keys m) -> (rm_exists m x = Some a <-> exists k, nth_error (keys m) k = Some x /\ dat m k = Some a).
Proof.
  intros m x a N. unfold rm_exists, tm_exists. split.
  - intros H. destruct (tr_index Nat.eqb (keys m) x) as [k|] eqn:E; cbn in H; [|discriminate]. apply tr_index_Some in E; [|apply Nat_eqb_ok]. eauto.
  - intros (k & H1 & H2). apply (tr_index_nth _ _ Nat_eqb_ok) in H1; auto. rewrite H1. cbn. auto.
Qed.
Lemma rm_exists_In : forall m x, (exists a, rm_exists m x = Some a) <-> In x (keys m).
Proof.
  intros m x. unfold rm_exists, tm_exists. split.
  - intros [a H]. destruct (tr_index Nat.eqb (keys m) x) eqn:E; cbn in H; [|discriminate]. apply tr_index_Some in E; [|apply Nat_eqb_ok]. eapply nth_error_In; eauto.
  - intros H. destruct (tr_index Nat.eqb (keys m) x) as [k|] eqn:E.
    + cbn. apply tr_index_Some in E; [|apply Nat_eqb_ok]. apply nth_error_lt in E. rewrite map_length in E. apply tm_data_lt; auto.
    + apply tr_index_None in E; [tauto|apply Nat_eqb_ok].
Qed.
Lemma tm_set_spec : forall D (m m' : list (nat * D)) k d, tm_set m k d = Some m' ->
  k < length m /\ map fst m' = map fst m /\ (forall j, tm_data m' j = if Nat.eqb j k then Some d else tm_data m j).
Proof.
  intros D m m' k d H. unfold tm_set in H. destruct (nth_error m k) as [[x a]|] eqn:E; cbn in H; [|discriminate]. injection H as <-.
  assert (L: k < length m) by (eapply nth_error_lt; eauto). ands; auto.
  - revert k E L. induction m as [|[y b] m IH]; intros [|k] E L; cbn in *; auto; try congruence. f_equal. apply IH; auto. lia.
  - intros j. unfold tm_data. destruct (Nat.eqb_spec j k) as [->|Hj].
    + rewrite nth_error_upd_eq; auto.
    + rewrite nth_error_upd_neq; auto.
Qed.
Lemma tm_set_def : forall D (m : list (nat * D)) k d, k < length m -> exists m', tm_set m k d = Some m'.
Proof. intros D m k d H. apply nth_error_ex in H. destruct H as [e E]. unfold tm_set. rewrite E. cbn. eauto. Qed.

(** get_concrete_values gives the values of the class. *)
Lemma rm_concrete_spec : forall m a, RI m -> exists l, rm_concrete m a = Some l /\ NoDup l /\ forall x, In x l <-> rm_exists m x = Some a.
Proof.
  intros m a R. unfold rm_concrete. destruct (nth_error (rm_ids m) a) as [ks|] eqn:E.
  - destruct (ri_bucket m R a ks E) as [N B].
    destruct (omap_def _ _ (tm_at (rm_map m)) ks) as [l El].
    { intros k Hk. apply B in Hk. rewrite tm_at_keys. intros H. apply nth_error_None in H. rewrite map_length in H.
      assert (exists a, dat m k = Some a) by eauto. apply tm_data_lt in H0. lia. }
    exists l. ands; auto.
    + apply omap_inv in El. clear E. assert (Hk: forall k, In k ks -> True) by auto. revert N Hk. clear B. induction El as [|k x ks l E F IH]; intros N Hk; constructor.
      * intros Hin. inversion N; subst. apply H1. assert (exists k', In k' ks /\ tm_at (rm_map m) k' = Some x).
        { clear - F Hin. induction F as [|k1 x1 ks1 l1 E1 F1 IH1]; [destruct Hin|]. destruct Hin as [->|Hin]; [exists k1; cbn; auto|].
          destruct (IH1 Hin) as (k' & H1 & H2). exists k'. cbn. auto. }
        destruct H as (k' & H3 & H4). rewrite tm_at_keys in E, H4. assert (k = k'); [|congruence].
        apply (proj1 (NoDup_nth_error _) (ri_keys m R)); [eapply nth_error_lt; eauto|congruence].
      * inversion N; subst. auto.
    + intros x. rewrite (omap_In _ _ _ _ _ _ El), rm_exists_iff; [|apply ri_keys; auto]. split; intros (k & H1 & H2); exists k.
      * split; [rewrite tm_at_keys in H2; auto|apply B; auto].
      * split; [apply B; auto|rewrite tm_at_keys; auto].
  - exists []. ands; auto; [constructor|]. intros x. split; [intros []|]. intros H. apply rm_exists_iff in H; [|apply ri_keys; auto].
    destruct H as (k & _ & H). apply (ri_lt m R) in H. apply nth_error_None in E. unfold rm_size in H. lia.
Qed.

(** *** refine *)
Section Refine.
  Variables (m0 : rmap) (id : nat).
  Hypothesis R0 : RI m0.
  Hypothesis Hid : id < rm_size m0.
  (** During the loop: only the bucket of the refined class still has the moved values. *)
  Record RJ (m : rmap) (moved : list nat) : Prop := mk_RJ {
    rj_keys : keys m = keys m0;
    rj_size : rm_size m0 <= rm_size m;
    rj_old : nth_error (rm_ids m) id = nth_error (rm_ids m0) id;
    rj_bucket : forall a ks, a <> id -> nth_error (rm_ids m) a = Some ks -> NoDup ks /\ forall k, In k ks <-> dat m k = Some a;
    rj_nodup : NoDup moved;
    rj_moved : forall k, In k moved <-> dat m0 k = Some id /\ dat m k <> Some id;
    rj_other : forall k a, dat m0 k = Some a -> a <> id -> dat m k = Some a;
    rj_lt : forall k a, dat m k = Some a -> a < rm_size m
  }.
  Lemma RJ_nodup_keys : forall m moved, RJ m moved -> NoDup (keys m).
  Proof. intros m moved J. rewrite (rj_keys _ _ J). apply ri_keys; auto. Qed.
  Lemma dat_iff : forall m moved k, RJ m moved -> ((exists a, dat m k = Some a) <-> (exists a, dat m0 k = Some a)).
  Proof.
    intros m moved k J. rewrite <- !tm_data_lt. pose proof (f_equal (@length _) (rj_keys _ _ J)) as E. rewrite !map_length in E. rewrite E. tauto.
  Qed.
  Lemma RJ_init : RJ m0 [].
  Proof.
    split; auto.
    - intros a ks _ H. apply (ri_bucket m0 R0); auto.
    - constructor.
    - intros k. cbn. tauto.
    - intros k a H. apply (ri_lt m0 R0 k); auto.
  Qed.
  (** Moving a value of the class. *)
  Lemma move_spec : forall n x m moved, RJ m moved -> n <> id -> n < rm_size m -> rm_exists m x = Some id ->
    exists m' moved', rf_move n (m, moved) x = Some (m', moved') /\ RJ m' moved' /\ rm_size m' = rm_size m /\
      forall y, rm_exists m' y = if Nat.eqb y x then Some n else rm_exists m y.
  Proof.
    intros n x m moved J Hn Ln Hx. pose proof (RJ_nodup_keys _ _ J) as Nk.
    pose proof (proj1 (rm_exists_iff m x id Nk) Hx) as (k & K1 & K2). unfold rf_move.
    assert (Ek: tm_exists Nat.eqb (rm_map m) x = Some k) by (apply (tr_index_nth _ _ Nat_eqb_ok); auto). rewrite Ek. cbn [obind].
    destruct (tm_set_def _ (rm_map m) k n) as [mp Emp]; [apply tm_data_lt; eauto|]. rewrite Emp. cbn [obind].
    destruct (nth_error_ex _ (rm_ids m) n Ln) as [b Eb]. rewrite Eb. cbn [obind].
    destruct (tm_set_spec _ _ _ _ _ Emp) as (L & Kf & Df).
    set (m' := mk_rmap mp (upd (rm_ids m) n (b ++ [k]))). exists m', (moved ++ [k]).
    assert (S': rm_size m' = rm_size m) by (unfold rm_size, m'; cbn; apply upd_length).
    assert (K0: dat m0 k = Some id).
    { destruct (proj1 (dat_iff m moved k J)) as [a Ha]; eauto. destruct (Nat.eq_dec a id) as [->|Na]; auto.
      rewrite (rj_other _ _ J k a) in K2; auto. congruence. }
    assert (Nm: ~ In k moved) by (rewrite (rj_moved _ _ J); tauto).
    assert (Bn: NoDup b /\ forall j, In j b <-> dat m j = Some n) by (apply (rj_bucket _ _ J); auto).
    ands; auto.
    - split.
      + unfold m'. cbn. rewrite Kf. apply (rj_keys _ _ J).
      + rewrite S'. apply (rj_size _ _ J).
      + unfold m'. cbn. rewrite nth_error_upd_neq; auto. apply (rj_old _ _ J).
      + intros a ks Ha. unfold m'. cbn. destruct (Nat.eq_dec n a) as [<-|Na].
        * rewrite nth_error_upd_eq; auto. intros E. injection E as <-. split.
          -- apply NoDup_app_snoc; [tauto|]. destruct Bn as [_ Bn]. rewrite Bn. congruence.
          -- intros j. rewrite in_app_iff. destruct Bn as [_ Bn]. rewrite Bn, Df. destruct (Nat.eqb_spec j k) as [->|Nj]; cbn; [tauto|]. intuition congruence.
        * rewrite nth_error_upd_neq; auto. intros E. destruct (rj_bucket _ _ J a ks Ha E) as [H1 H2]. split; auto.
          intros j. rewrite H2, Df. destruct (Nat.eqb_spec j k) as [->|Nj]; [|tauto]. rewrite K2. split; congruence.
      + apply NoDup_app_snoc; auto. apply (rj_nodup _ _ J).
      + intros j. rewrite in_app_iff, (rj_moved _ _ J). unfold m'. cbn [rm_map In]. rewrite Df. destruct (Nat.eqb_spec j k) as [->|Nj].
        * split; auto. intros _. split; auto. congruence.
        * intuition congruence.
      + intros j a Hj Na. unfold m'. cbn [rm_map]. rewrite Df. destruct (Nat.eqb_spec j k) as [->|Nj]; [congruence|]. apply (rj_other _ _ J); auto.
      + intros j a. unfold m' at 1. cbn [rm_map]. rewrite Df, S'. destruct (Nat.eqb_spec j k) as [->|Nj]; [congruence|]. apply (rj_lt _ _ J).
    - intros y. unfold rm_exists, tm_exists. unfold m'. cbn [rm_map]. rewrite Kf. destruct (Nat.eqb_spec y x) as [->|Ny].
      + unfold tm_exists in Ek. rewrite Ek. cbn. rewrite Df, Nat.eqb_refl. auto.
      + destruct (tr_index Nat.eqb (keys m) y) as [j|] eqn:Ey; cbn; auto. rewrite Df. destruct (Nat.eqb_spec j k) as [->|Nj]; auto.
        apply tr_index_Some in Ey; [|apply Nat_eqb_ok]. congruence.
  Qed.
  Lemma moves_spec : forall n p m moved, RJ m moved -> n <> id -> n < rm_size m -> NoDup p -> (forall x, In x p -> rm_exists m x = Some id) ->
    exists m' moved', ofold (rf_move n) p (m, moved) = Some (m', moved') /\ RJ m' moved' /\ rm_size m' = rm_size m /\
      forall y, rm_exists m' y = if memb y p then Some n else rm_exists m y.
  Proof.
    induction p as [|x p IH]; intros m moved J Hn Ln N Hp.
    - exists m, moved. cbn. ands; auto.
    - inversion N; subst. destruct (move_spec n x m moved J Hn Ln) as (m1 & v1 & E1 & J1 & S1 & X1); [apply Hp; cbn; auto|].
      destruct (IH m1 v1) as (m2 & v2 & E2 & J2 & S2 & X2); auto; [lia| |].
      { intros y Hy. rewrite X1. destruct (Nat.eqb_spec y x) as [->|]; [tauto|]. apply Hp. cbn. auto. }
      exists m2, v2. cbn [ofold]. rewrite E1. cbn [obind]. ands; auto; [congruence|].
      intros y. rewrite X2, X1. cbn. rewrite (Nat.eqb_sym y x). destruct (Nat.eqb_spec x y) as [->|]; cbn; auto. destruct (memb y p) eqn:M; auto.
  Qed.
  Definition in_parts (parts : list (list nat)) (x : nat) : bool := existsb (memb x) parts.
  Lemma parts_spec : forall mx parts i m moved, RJ m moved ->
    NoDup (concat parts) -> (forall p, In p parts -> p <> []) -> (forall x, In x (concat parts) -> rm_exists m x = Some id) ->
    exists m' moved' c, ofold (rf_part id mx) (enum_from i parts) (m, moved) = Some (m', moved') /\ RJ m' moved' /\
      rm_size m <= rm_size m' /\
      (forall j p x, nth_error parts j = Some p -> In x p -> rm_exists m' x = Some (c j)) /\
      (forall j, j < length parts -> if Nat.eqb (i + j) mx then c j = id else rm_size m <= c j < rm_size m') /\
      (forall j k, j < length parts -> k < length parts -> c j = c k -> j = k) /\
      (forall a, rm_size m <= a < rm_size m' -> exists j, j < length parts /\ c j = a) /\
      (forall x, ~ In x (concat parts) -> rm_exists m' x = rm_exists m x).
  Proof.
    induction parts as [|p parts IH]; intros i m moved J N He Hx.
    - exists m, moved, (fun _ => 0). cbn. ands; auto; try (intros; lia). intros [|j] q x H; discriminate.
    - cbn [concat] in N, Hx. destruct (NoDup_app_parts _ _ _ N) as (N1 & N2 & Dj).
      assert (Ep: is_nil p = false) by (destruct p; auto; exfalso; apply (He []); cbn; auto).
      assert (Ec: forallb (fun x => rm_maps_to m x id) p = true).
      { apply forallb_forall. intros x H. unfold rm_maps_to. rewrite Hx; [apply Nat.eqb_refl|apply in_or_app; auto]. }
      cbn [enum_from ofold]. unfold rf_part at 1. rewrite Ep, Ec. cbn [negb orb]. destruct (Nat.eqb_spec i mx) as [Ei|Ei]; cbn [obind].
      + destruct (IH (S i) m moved J N2) as (m' & v' & c & E & J' & S' & X1 & X2 & X3 & X4 & X5).
        { intros q Hq. apply He. cbn. auto. }
        { intros x H. apply Hx. apply in_or_app. auto. }
        exists m', v', (fun j => match j with 0 => id | S j => c j end). ands; auto.
        * intros [|j] q x Hq Hin; cbn in Hq; [|eauto]. injection Hq as <-. rewrite X5; [|auto]. apply Hx. apply in_or_app; auto.
        * intros [|j] Hj; [rewrite Nat.add_0_r; destruct (Nat.eqb_spec i mx); [auto|congruence]|]. specialize (X2 j). cbn in Hj. replace (i + S j) with (S i + j) by lia. apply X2. lia.
        * intros j k Hj Hk Ejk. cbn in Hj, Hk. pose proof (rj_size _ _ J) as Sz. unfold rm_size in Hid.
          assert (Hb: forall j, j < length parts -> c j <> id).
          { intros l Hl. specialize (X2 l Hl). destruct (Nat.eqb_spec (S i + l) mx); [lia|]. unfold rm_size in *. lia. }
          destruct j as [|j], k as [|k]; auto.
          -- exfalso. apply (Hb k); auto. lia.
          -- exfalso. apply (Hb j); auto. lia.
          -- f_equal. apply X3; auto; lia.
        * intros a Ha. destruct (X4 a Ha) as (j & H1 & H2). exists (S j). cbn. split; auto. lia.
        * intros x Hn. cbn [concat] in Hn. rewrite in_app_iff in Hn. apply X5. tauto.
      + set (m1 := mk_rmap (rm_map m) (rm_ids m ++ [[]])).
        assert (S1: rm_size m1 = S (rm_size m)) by (unfold rm_size, m1; cbn; rewrite app_length; cbn; lia).
        pose proof (rj_size _ _ J) as Sz.
        assert (J1: RJ m1 moved).
        { split; try apply J.
          - rewrite S1. lia.
          - unfold m1. cbn. rewrite nth_error_app1; [apply J|]. unfold rm_size in *. lia.
          - intros a ks Ha. unfold m1. cbn [rm_ids rm_map]. destruct (lt_dec a (length (rm_ids m))) as [La|La].
            + rewrite nth_error_app1; auto. apply (rj_bucket _ _ J); auto.
            + rewrite nth_error_app2; [|lia]. destruct (a - length (rm_ids m)) eqn:Ea; cbn; [|destruct n; discriminate].
              intros E. injection E as <-. split; [constructor|]. intros k. split; [intros []|]. intros H. apply (rj_lt _ _ J) in H. unfold rm_size in H. lia.
          - intros k a. unfold m1 at 1. cbn [rm_map]. rewrite S1. intros H. apply (rj_lt _ _ J) in H. lia. }
        destruct (moves_spec (length (rm_ids m)) p m1 moved J1) as (m2 & v2 & E2 & J2 & S2 & X); auto.
        { unfold rm_size in *. lia. } { unfold rm_size in *. lia. }
        { intros x H. unfold rm_exists, m1. cbn. apply Hx. apply in_or_app. auto. }
        rewrite E2. cbn [obind].
        destruct (IH (S i) m2 v2 J2 N2) as (m' & v' & c & E & J' & S' & X1 & X2 & X3 & X4 & X5).
        { intros q Hq. apply He. cbn. auto. }
        { intros x H. rewrite X. replace (memb x p) with false; [apply Hx; apply in_or_app; auto|]. symmetry. apply not_true_iff_false. intros M. apply memb_In in M.
          apply (Dj x); auto. }
        exists m', v', (fun j => match j with 0 => length (rm_ids m) | S j => c j end). ands; auto; [lia| | | | |].
        * intros [|j] q x Hq Hin; cbn in Hq; [|eauto]. injection Hq as <-. rewrite X5; [|auto]. rewrite X. replace (memb x p) with true; auto.
          symmetry. apply memb_In. auto.
        * intros [|j] Hj; [rewrite Nat.add_0_r; destruct (Nat.eqb_spec i mx); [congruence|unfold rm_size in *; lia]|]. cbn in Hj. specialize (X2 j). replace (i + S j) with (S i + j) by lia.
          destruct (Nat.eqb (S i + j) mx); [apply X2; lia|]. lia.
        * intros j k Hj Hk Ejk. cbn in Hj, Hk.
          assert (Hb: forall j, j < length parts -> c j <> length (rm_ids m)).
          { intros l Hl. specialize (X2 l Hl). destruct (Nat.eqb_spec (S i + l) mx); unfold rm_size in *; lia. }
          destruct j as [|j], k as [|k]; auto.
          -- exfalso. apply (Hb k); auto. lia.
          -- exfalso. apply (Hb j); auto. lia.
          -- f_equal. apply X3; auto; lia.
        * intros a Ha. destruct (Nat.eq_dec a (rm_size m)) as [->|Na]; [exists 0; cbn; split; [lia|reflexivity]|].
          destruct (X4 a) as (j & H1 & H2); [lia|]. exists (S j). cbn. split; auto. lia.
        * intros x Hn. cbn [concat] in Hn. rewrite in_app_iff in Hn. rewrite X5; [|tauto]. rewrite X.
          replace (memb x p) with false; auto. symmetry. apply not_true_iff_false. intros M. apply memb_In in M. tauto.
  Qed.
End Refine.

Lemma max_index_range : forall l i best len, best < i -> max_index l i best len < i + length l.
Proof.
  induction l as [|p l IH]; intros i best len H; cbn; [lia|]. destruct (Nat.ltb len (length p)); (eapply Nat.lt_le_trans; [apply IH; lia|lia]).
Qed.
Lemma max_part_lt : forall l, l <> [] -> max_part l < length l.
Proof. intros [|p l] H; [congruence|]. cbn. apply (max_index_range l 1 0). lia. Qed.
(** A refinement that fits to a mapping: disjoint non-empty parts of the class [rf_id r]. *)
Definition ref_fits (m : rmap) (r : refinement) : Prop :=
  NoDup (concat (rf_parts r)) /\ (forall p, In p (rf_parts r) -> p <> []) /\ (forall x, In x (concat (rf_parts r)) -> rm_exists m x = Some (rf_id r)).
Lemma refine_spec : forall m r, RI m -> ref_fits m r -> 2 <= length (rf_parts r) ->
  exists m' c, rm_refine m r = Some m' /\ RI m' /\ rm_size m <= rm_size m' /\
    (forall j p x, nth_error (rf_parts r) j = Some p -> In x p -> rm_exists m' x = Some (c j)) /\
    (forall j, j < length (rf_parts r) -> if Nat.eqb j (max_part (rf_parts r)) then c j = rf_id r else rm_size m <= c j < rm_size m') /\
    (forall j k, j < length (rf_parts r) -> k < length (rf_parts r) -> c j = c k -> j = k) /\
    (forall a, rm_size m <= a < rm_size m' -> exists j, j < length (rf_parts r) /\ c j = a) /\
    (forall x, ~ In x (concat (rf_parts r)) -> rm_exists m' x = rm_exists m x).
Proof.
  intros m r R (N & He & Hx) L. assert (Hid: rf_id r < rm_size m).
  { destruct (rf_parts r) as [|[|x p] ps] eqn:E; cbn in L; [lia|exfalso; apply (He []); cbn; auto|].
    assert (H: rm_exists m x = Some (rf_id r)) by (apply Hx; cbn; auto). apply rm_exists_iff in H; [|apply ri_keys; auto]. destruct H as (k & _ & H). apply (ri_lt m R k); auto. }
  destruct (parts_spec m (rf_id r) R Hid (max_part (rf_parts r)) (rf_parts r) 0 m [] (RJ_init m _ R) N He Hx) as (m1 & moved & c & E & J & S1 & X1 & X2 & X3 & X4 & X5).
  unfold rm_refine. replace (Nat.leb (length (rf_parts r)) 1) with false by (symmetry; apply Nat.leb_gt; lia). unfold enum. rewrite E. cbn [obind].
  destruct (nth_error_ex _ (rm_ids m) (rf_id r) Hid) as [b Eb]. rewrite (rj_old _ _ _ _ J), Eb. cbn [obind].
  destruct (ri_bucket m R _ _ Eb) as [Nb Bb].
  eexists. exists c. split; [reflexivity|].
  assert (X0: forall x, rm_exists (mk_rmap (rm_map m1) (upd (rm_ids m1) (rf_id r) (set_diff (sort_nat b) (sort_nat moved)))) x = rm_exists m1 x) by reflexivity.
  assert (Sz: rm_size (mk_rmap (rm_map m1) (upd (rm_ids m1) (rf_id r) (set_diff (sort_nat b) (sort_nat moved)))) = rm_size m1) by (unfold rm_size; cbn; apply upd_length).
  rewrite Sz. ands; auto.
  split.
  - apply (RJ_nodup_keys m (rf_id r) R _ _ J).
  - intros a ks. cbn [rm_ids rm_map]. destruct (Nat.eq_dec (rf_id r) a) as [<-|Na].
    + rewrite nth_error_upd_eq; [|unfold rm_size in *; lia]. intros H. injection H as <-.
      pose proof (sort_nat_ssorted b Nb) as Sb. pose proof (sort_nat_ssorted moved (rj_nodup _ _ _ _ J)) as Sm.
      split; [apply ssorted_NoDup; apply set_diff_ssorted; auto|]. intros k. rewrite set_diff_In; auto. rewrite !sort_nat_In, Bb, (rj_moved _ _ _ _ J).
      split.
      * intros [H1 H2]. destruct (dat m1 k) as [a|] eqn:Ed.
        -- destruct (Nat.eq_dec a (rf_id r)) as [->|]; auto. exfalso. apply H2. split; congruence.
        -- exfalso. destruct (proj2 (dat_iff m (rf_id r) m1 moved k J)) as [a Ha]; eauto. congruence.
      * intros H. assert (H0: dat m k = Some (rf_id r)); [|tauto]. destruct (proj1 (dat_iff m (rf_id r) m1 moved k J)) as [a Ha]; eauto.
        destruct (Nat.eq_dec a (rf_id r)) as [->|Na]; auto. rewrite (rj_other _ _ _ _ J k a) in H; auto. congruence.
    + rewrite nth_error_upd_neq; auto. apply (rj_bucket _ _ _ _ J). auto.
  - intros k a. cbn [rm_map]. rewrite Sz. apply (rj_lt _ _ _ _ J).
Qed.

(** *** Insertion *)
Inductive acall := AInsert (x : nat) (ignore : bool) | AAbstract (a : nat).
Definition am_do (f : nat -> nat) (m : amap) (c : acall) : option amap :=
  match c with
  | AInsert x ig => r <- am_insert f m x ig ;; Some (fst r)
  | AAbstract a => Some (fst (am_insert_abstract m a))
  end.
Definition am_run (f : nat -> nat) (cs : list acall) : option amap := ofold (am_do f) cs am_empty.
(** The concrete values inserted by the calls, and all abstract values they mention. *)
Definition concretes (cs : list acall) : list nat := flat_map (fun c => match c with AInsert x false => [x] | _ => [] end) cs.
Definition abstracts (f : nat -> nat) (cs : list acall) : list nat := map (fun c => match c with AInsert x _ => f x | AAbstract a => a end) cs.
Record AI (f : nat -> nat) (m : amap) (xs vs : list nat) : Prop := mk_AI {
  ai_ri : RI (am_rm m);
  ai_abs : NoDup (am_abs m);
  ai_size : rm_size (am_rm m) = length (am_abs m);
  ai_keys : forall x, In x (keys (am_rm m)) <-> In x xs;
  ai_vals : forall v, In v (am_abs m) <-> In v vs;
  ai_fun : forall k x a, nth_error (keys (am_rm m)) k = Some x -> dat (am_rm m) k = Some a -> nth_error (am_abs m) a = Some (f x)
}.
Lemma nth_repeat_nil : forall n a (ks : list nat), nth_error (repeat [] n) a = Some ks -> ks = [].
Proof. intros n a ks H. apply nth_error_In in H. apply repeat_spec in H. auto. Qed.
Lemma resize_spec : forall ids v n, length ids <= n -> (n = length ids /\ v < n \/ n = S (length ids) /\ v = length ids) ->
  length (resize_ids ids v) = n /\ forall a ks, nth_error (resize_ids ids v) a = Some ks -> nth_error ids a = Some ks \/ (length ids <= a /\ ks = []).
Proof.
  intros ids v n L H. unfold resize_ids. destruct (Nat.leb_spec (length ids) v) as [H1|H1].
  - assert (v = length ids) by lia. subst v. replace (S (length ids) - length ids) with 1 by lia. rewrite app_length. cbn. split; [lia|].
    intros a ks E. destruct (lt_dec a (length ids)) as [La|La]; [rewrite nth_error_app1 in E; auto|].
    rewrite nth_error_app2 in E; [|lia]. right. split; [lia|]. destruct (a - length ids) as [|[|z]]; cbn in E; congruence.
  - split; [lia|auto].
Qed.
(** Adding the abstract value alone. *)
Lemma add_abs : forall f m xs vs w abs b v, AI f m xs vs -> ts_insert Nat.eqb (am_abs m) w = (abs, (b, v)) ->
  AI f (mk_amap (mk_rmap (rm_map (am_rm m)) (resize_ids (rm_ids (am_rm m)) v)) abs) xs (vs ++ [w]) /\ nth_error abs v = Some w /\
  (b = true <-> ~ In w vs) /\ v < length (resize_ids (rm_ids (am_rm m)) v).
Proof.
  intros f m xs vs w abs b v A H. destruct (ts_insert_spec _ _ Nat_eqb_ok _ _ _ _ _ H (ai_abs _ _ _ _ A)) as (N & Ev & Hb & Ea & Hv).
  pose proof (ai_size _ _ _ _ A) as Sz. unfold rm_size in Sz.
  assert (Lv: length (rm_ids (am_rm m)) <= length abs /\ (length abs = length (rm_ids (am_rm m)) /\ v < length abs \/ length abs = S (length (rm_ids (am_rm m))) /\ v = length (rm_ids (am_rm m)))).
  { subst abs. destruct b; [rewrite app_length; cbn; specialize (Hv eq_refl); lia|]. apply nth_error_lt in Ev. lia. }
  destruct (resize_spec (rm_ids (am_rm m)) v (length abs) (proj1 Lv) (proj2 Lv)) as [L1 L2].
  ands; auto; try lia.
  - split; cbn [am_rm am_abs rm_map].
    + pose proof (ai_ri _ _ _ _ A) as R. split; cbn [rm_ids rm_map].
      * apply ri_keys; auto.
      * intros a ks E. apply L2 in E. destruct E as [E|[E ->]]; [apply (ri_bucket _ R); auto|]. split; [constructor|]. intros k. split; [intros []|].
        intros D. apply (ri_lt _ R) in D. unfold rm_size in D. lia.
      * intros k a D. apply (ri_lt _ R) in D. unfold rm_size in *. cbn. lia.
    + auto.
    + unfold rm_size. cbn. auto.
    + apply (ai_keys _ _ _ _ A).
    + intros u. rewrite in_app_iff. cbn. subst abs. destruct b.
      * rewrite in_app_iff, (ai_vals _ _ _ _ A). cbn. tauto.
      * rewrite (ai_vals _ _ _ _ A). split; auto. intros [Hu|[<-|[]]]; auto. apply nth_error_In in Ev. apply (ai_vals _ _ _ _ A); auto.
    + intros k x a H1 H2. pose proof (ai_fun _ _ _ _ A k x a H1 H2) as E. subst abs. destruct b; auto. rewrite nth_error_app1; auto. eapply nth_error_lt; eauto.
  - rewrite Hb, (ai_vals _ _ _ _ A). tauto.
Qed.
Lemma insert_spec : forall f m xs vs x ig, AI f m xs vs -> exists m' b v, am_insert f m x ig = Some (m', (b, v)) /\
  AI f m' (xs ++ if ig then [] else [x]) (vs ++ [f x]) /\ nth_error (am_abs m') v = Some (f x) /\ (b = true <-> ~ In (f x) vs) /\
  (ig = false -> rm_exists (am_rm m') x = Some v).
Proof.
  intros f m xs vs x ig A. unfold am_insert. destruct ig.
  - cbn [negb]. destruct (ts_insert Nat.eqb (am_abs m) (f x)) as [abs [b v]] eqn:E. destruct (add_abs _ _ _ _ _ _ _ _ A E) as (A' & E1 & E2 & _).
    eexists. exists b, v. split; [reflexivity|]. rewrite app_nil_r. ands; auto. discriminate.
  - unfold tm_insert. pose proof (ai_ri _ _ _ _ A) as R. destruct (tr_index Nat.eqb (keys (am_rm m)) x) as [k|] eqn:Ek.
    + cbn [negb]. apply tr_index_Some in Ek; [|apply Nat_eqb_ok].
      assert (Lk: k < length (rm_map (am_rm m))) by (apply nth_error_lt in Ek; rewrite map_length in Ek; auto).
      apply tm_data_lt in Lk. destruct Lk as [d Ed]. rewrite Ed. cbn [obind]. exists m, false, d.
      assert (Hx: In x xs) by (apply (ai_keys _ _ _ _ A); eapply nth_error_In; eauto).
      pose proof (ai_fun _ _ _ _ A k x d Ek Ed) as F.
      assert (Hv: In (f x) vs) by (apply (ai_vals _ _ _ _ A); eapply nth_error_In; eauto).
      ands; auto.
      * destruct A as [A1 A2 A3 A4 A5 A6]. split; auto.
        -- intros y. rewrite A4, in_app_iff. cbn. intuition congruence.
        -- intros y. rewrite A5, in_app_iff. cbn. intuition congruence.
      * split; [discriminate|tauto].
      * intros _. apply rm_exists_iff; [apply ri_keys; auto|eauto].
    + cbn [negb]. destruct (ts_insert Nat.eqb (am_abs m) (f x)) as [abs [b v]] eqn:E. destruct (add_abs _ _ _ _ _ _ _ _ A E) as (A' & E1 & E2 & Lv).
      apply tr_index_None in Ek; [|apply Nat_eqb_ok].
      destruct (tm_set_def _ (rm_map (am_rm m) ++ [(x, 0)]) (length (rm_map (am_rm m))) v) as [mp Emp]; [rewrite app_length; cbn; lia|].
      rewrite Emp. cbn [obind]. destruct (nth_error_ex _ _ _ Lv) as [bk Eb]. rewrite Eb. cbn [obind].
      destruct (tm_set_spec _ _ _ _ _ Emp) as (_ & Kf & Df). rewrite map_app in Kf. cbn in Kf.
      set (K := length (rm_map (am_rm m))) in *.
      assert (LK: length (keys (am_rm m)) = K) by apply map_length.
      set (m1 := mk_amap (mk_rmap mp (upd (resize_ids (rm_ids (am_rm m)) v) v (bk ++ [K]))) abs). exists m1, b, v.
      assert (Dold: forall j, j <> K -> tm_data mp j = dat (am_rm m) j).
      { intros j Hj. rewrite Df. destruct (Nat.eqb_spec j K); [congruence|]. unfold tm_data. destruct (lt_dec j K) as [L|L].
        - rewrite nth_error_app1; auto.
        - rewrite (proj2 (nth_error_None _ _)); [|rewrite app_length; cbn; fold K; lia]. rewrite (proj2 (nth_error_None (rm_map (am_rm m)) j)); [auto|fold K; lia]. }
      assert (Dk: tm_data mp K = Some v) by (rewrite Df, Nat.eqb_refl; auto).
      assert (Dn: dat (am_rm m) K = None) by (unfold tm_data; rewrite (proj2 (nth_error_None _ _)); auto).
      pose proof (ai_ri _ _ _ _ A') as R'. cbn [am_rm] in R'.
      assert (R1: RI (am_rm m1)).
      { split; cbn [m1 am_rm rm_map rm_ids].
        - rewrite Kf. apply NoDup_app_snoc; auto. apply ri_keys; auto.
        - intros a ks. destruct (Nat.eq_dec v a) as [<-|Na].
          + rewrite nth_error_upd_eq; auto. intros H. injection H as <-. destruct (ri_bucket _ R' v bk Eb) as [N1 B1]. cbn [rm_map] in B1. split.
            * apply NoDup_app_snoc; auto. rewrite B1. congruence.
            * intros k. rewrite in_app_iff, B1. cbn. destruct (Nat.eq_dec k K) as [->|Nk]; [intuition congruence|]. rewrite Dold; auto. intuition congruence.
          + rewrite nth_error_upd_neq; auto. intros H. destruct (ri_bucket _ R' a ks H) as [N1 B1]. cbn [rm_map] in B1. split; auto.
            intros k. rewrite B1. destruct (Nat.eq_dec k K) as [->|Nk]; [split; congruence|]. rewrite Dold; auto. tauto.
        - intros k a. unfold rm_size. cbn. rewrite upd_length. destruct (Nat.eq_dec k K) as [->|Nk].
          + intros H. assert (a = v) by congruence. lia.
          + rewrite Dold; auto. intros H. apply (ri_lt _ R' k a H). }
      ands; auto.
      * split; auto.
        -- apply (ai_abs _ _ _ _ A').
        -- unfold rm_size. cbn. rewrite upd_length. apply (ai_size _ _ _ _ A').
        -- intros y. cbn [m1 am_rm rm_map]. rewrite Kf, !in_app_iff. rewrite (ai_keys _ _ _ _ A). tauto.
        -- apply (ai_vals _ _ _ _ A').
        -- intros k y a. cbn [m1 am_rm rm_map am_abs]. rewrite Kf. destruct (Nat.eq_dec k K) as [->|Nk].
           ++ rewrite nth_error_app2; [|lia]. rewrite LK, Nat.sub_diag. cbn. intros H1 H2. congruence.
           ++ rewrite Dold; auto. intros H1 H2. apply (ai_fun _ _ _ _ A' k y a); cbn [am_rm rm_map]; auto.
              assert (k < K). { apply tm_data_lt. eauto. }
              rewrite nth_error_app1 in H1; auto. lia.
      * intros _. apply rm_exists_iff; [apply ri_keys; auto|]. exists K. cbn [m1 am_rm rm_map]. split; auto. rewrite Kf, nth_error_app2, LK, Nat.sub_diag; auto. lia.
Qed.
Lemma am_run_spec : forall f cs, exists m, am_run f cs = Some m /\ AI f m (concretes cs) (abstracts f cs).
Proof.
  intros f cs. unfold am_run.
  assert (H: forall cs m xs vs, AI f m xs vs -> exists m', ofold (am_do f) cs m = Some m' /\ AI f m' (xs ++ concretes cs) (vs ++ abstracts f cs)).
  { clear. induction cs as [|c cs IH]; intros m xs vs A.
    - exists m. cbn. rewrite !app_nil_r. auto.
    - cbn [ofold concretes flat_map abstracts map]. destruct c as [x ig|a].
      + cbn [am_do]. destruct (insert_spec f m xs vs x ig A) as (m1 & b & v & E & A1 & _). rewrite E. cbn [obind fst].
        destruct (IH _ _ _ A1) as (m2 & E2 & A2). exists m2. rewrite E2. split; auto. rewrite <- !app_assoc in A2. destruct ig; auto.
      + cbn [am_do obind]. unfold am_insert_abstract. destruct (ts_insert Nat.eqb (am_abs m) a) as [abs [b v]] eqn:E. destruct (add_abs _ _ _ _ _ _ _ _ A E) as (A' & _).
        destruct (IH _ _ _ A') as (m2 & E2 & A2). exists m2. cbn [fst]. rewrite E2. split; auto. rewrite <- !app_assoc in A2. auto. }
  destruct (H cs am_empty [] []) as (m & E & A).
  - split; cbn; auto; try tauto.
    + split; cbn; auto.
      * constructor.
      * intros [|a] ks H1; discriminate.
      * intros [|k] a H1; discriminate.
    + constructor.
    + intros [|k] x a H1; discriminate.
  - exists m. auto.
Qed.
