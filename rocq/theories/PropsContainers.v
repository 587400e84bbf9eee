(** Properties C21, C22, C38, C48, C49, C53: containers and small utilities. *)
From Coq Require Import List Arith Lia Bool NArith ZArith Sorting.Permutation.
From Verif Require Import Base BaseFacts PdaModel PdaProof AutModel ContainersModel ContainersSpec ContainersProof UtilModel UtilProof.
Import ListNotations.

(** * C21: precondition label sets *)
(** For every sequence of merge, intersect, noop_pre_filter and clear with sorted label vectors: no assertion fails, the
    stored vector is strictly increasing and empty when the wildcard is set, and it stands for the set computed by
    union, intersection, and "all labels" for the wildcard. contains (binary search) is membership. *)
Theorem C21_label_sets : forall all cs, 0 < all -> Forall (lcall_ok all) cs ->
  exists ls, do_lcalls all cs = Some ls /\
    (label_vec all (labs ls) /\ (wild ls = true -> labs ls = [])) /\
    (forall l, l < all -> exists b, contains_bin ls l = Some b /\ (b = true <-> lspec all cs l)) /\
    (labels_empty ls = false <-> exists l, lspec all cs l).
Proof.
  intros all cs Ha Hc. destruct (do_lcalls_spec all cs Ha Hc) as (ls & E & R & M).
  exists ls. split; auto. split; [exact R|]. split.
  - intros l Hl. destruct (contains_bin_spec all ls l R Hl) as [C1 C2]. exists (contains ls l). split; auto.
    rewrite C2. apply M.
  - rewrite (labels_empty_spec all ls R Ha). split; intros [l Hl]; exists l; apply M; auto.
Qed.
Print Assumptions C21_label_sets.

(** intersect returns whether anything is left; noop_pre_filter whether the stored value changed. *)
Theorem C21_returned_flags : forall all ls other, 0 < all ->
  label_vec all (labs ls) -> (wild ls = true -> labs ls = []) -> label_vec all other ->
  (exists ls' b, intersect ls other all = Some (ls', b) /\ (b = true <-> exists l, matches all ls l /\ In l other)) /\
  (snd (noop_pre_filter ls other) = false <-> fst (noop_pre_filter ls other) = ls).
Proof.
  intros all ls other Ha R1 R2 Ho. assert (R : lrep all ls) by (split; auto). split.
  - destruct (intersect_spec all ls other R Ho Ha) as (ls' & b & E & _ & M & B). exists ls', b. split; auto.
    rewrite B. split; intros [l Hl]; exists l; apply M; auto.
  - apply (noop_pre_filter_spec all ls other R Ho).
Qed.
Print Assumptions C21_returned_flags.

Example C21_example : do_lcalls 5 [LMerge false [1;3]; LMerge false [0;3;4]; LIntersect [0;2;3]; LFilter [3]] = Some (mk_labels false [3])
  /\ do_lcalls 5 [LMerge true [1]; LFilter [0;2]] = Some (mk_labels false [0;2])
  /\ Forall (lcall_ok 5) [LMerge false [1;3]; LIntersect [0;2;3]; LFilter [3]].
Proof.
  split; [reflexivity|]. split; [reflexivity|].
  assert (V : label_vec 5 [1;3] /\ label_vec 5 [0;2;3] /\ label_vec 5 [3]).
  { rewrite !label_vec_ssorted. unfold ssorted. cbn.
    ands; try (intros l Hl; lia); repeat constructor; lia. }
  constructor; [apply V|]. constructor; [apply V|]. constructor; [apply V|constructor].
Qed.

(** * C22: sorted vector containers *)
(** std::lower_bound on a partitioned vector returns the length of the prefix on which the predicate holds. *)
Theorem C22_binary_search : forall A (p : A -> bool) (l : list A),
  (forall i j x y, i <= j -> nth_error l i = Some x -> nth_error l j = Some y -> p y = true -> p x = true) ->
  exists r, lower_bound p l = Some r /\ r <= length l /\
    (forall i x, nth_error l i = Some x -> (p x = true <-> i < r)).
Proof.
  intros A p l H. destruct (lower_bound_split A p l H) as (l1 & l2 & E & R & F1 & F2).
  exists (length l1). split; auto. subst l. rewrite app_length. split; [lia|].
  rewrite Forall_forall in F1, F2. intros i x Hi. destruct (lt_dec i (length l1)) as [L|L].
  - rewrite nth_error_app1 in Hi by auto. apply nth_error_In in Hi. split; auto.
  - rewrite nth_error_app2 in Hi by lia. apply nth_error_In in Hi. apply F2 in Hi. split; [congruence|lia].
Qed.
Print Assumptions C22_binary_search.

(** vector_map: after any sequence of calls the iteration order is increasing in the keys, the entries are those of the
    finite map that emplace / insert_or_assign / resize / clear describe, find and contains look them up, and a call
    fails only when resize is asked to grow. *)
Theorem C22_vector_map : forall K V (ltb eqb : K -> K -> bool), total_order ltb eqb -> forall cs : list (vm_call K V),
  match vm_run ltb eqb cs, fm_run ltb eqb cs with
  | Some m, Some l =>
      (forall i j a b, i < j -> nth_error m i = Some a -> nth_error m j = Some b -> ltb (fst a) (fst b) = true) /\
      Permutation m l /\
      (forall k, vm_get ltb eqb m k = Some (assoc eqb l k) /\
                 vm_contains ltb eqb m k = Some (match assoc eqb l k with Some _ => true | None => false end))
  | None, None => True
  | _, _ => False
  end.
Proof.
  intros K V ltb eqb TO cs. pose proof (vm_run_spec K V ltb eqb TO cs) as H.
  destruct (vm_run ltb eqb cs) as [m|], (fm_run ltb eqb cs) as [l|]; auto. destruct H as [S P].
  split; [|split]; auto.
  - clear P. induction S as [|e m S IH F]; intros i j a b Hij Hi Hj; [destruct i; discriminate|].
    destruct j as [|j]; [lia|]. cbn in Hj. destruct i as [|i]; cbn in Hi.
    + injection Hi as <-. rewrite Forall_forall in F. apply F. eapply nth_error_In; eauto.
    + apply (IH i j); auto; lia.
  - intros k. rewrite <- (assoc_perm K V ltb eqb TO m l k); auto.
    + apply vm_get_assoc; auto.
    + eapply msorted_NoDup; eauto.
Qed.
Print Assumptions C22_vector_map.

(** emplace and insert_or_assign report whether the key was new and the position of its entry. *)
Theorem C22_vector_map_results : forall K V (ltb eqb : K -> K -> bool), total_order ltb eqb ->
  forall (cs : list (vm_call K V)) m l k v, vm_run ltb eqb cs = Some m -> fm_run ltb eqb cs = Some l ->
  (exists m' i b, vm_emplace ltb eqb m k v = Some (m', (i, b)) /\ (b = true <-> assoc eqb l k = None) /\
     nth_error m' i = Some (k, match assoc eqb l k with Some w => w | None => v end)) /\
  (exists m' i b, vm_assign ltb eqb m k v = Some (m', (i, b)) /\ (b = true <-> assoc eqb l k = None) /\
     nth_error m' i = Some (k, v)).
Proof.
  intros K V ltb eqb TO cs m l k v Hm Hl. pose proof (vm_run_spec K V ltb eqb TO cs) as H. rewrite Hm, Hl in H.
  destruct H as [S P]. rewrite <- (assoc_perm K V ltb eqb TO m l k) by (auto; eapply msorted_NoDup; eauto). split.
  - destruct (vm_emplace_spec K V ltb eqb TO m k v S) as (m' & i & E & _ & _ & N). exists m', i. eexists. split; [exact E|].
    split; auto. destruct (assoc eqb m k); split; congruence.
  - destruct (vm_assign_spec K V ltb eqb TO m k v S) as (m' & i & E & _ & _ & N). exists m', i. eexists. split; [exact E|].
    split; auto. destruct (assoc eqb m k); split; congruence.
Qed.
Print Assumptions C22_vector_map_results.

(** vector_map built from an unordered_map, whatever the order of the hash table. *)
Theorem C22_from_unordered : forall K V (ltb eqb : K -> K -> bool), total_order ltb eqb -> forall l : list (K * V),
  NoDup (map fst l) ->
  Permutation (vm_of_unordered ltb l) l /\
  (forall k, vm_get ltb eqb (vm_of_unordered ltb l) k = Some (assoc eqb l k)).
Proof.
  intros K V ltb eqb TO l Hn. destruct (vm_of_unordered_spec K V ltb eqb TO l Hn) as [S P]. split; auto.
  intros k. rewrite <- (assoc_perm K V ltb eqb TO (vm_of_unordered ltb l) l k); auto.
  - apply vm_get_assoc; auto.
  - eapply msorted_NoDup; eauto.
Qed.
Print Assumptions C22_from_unordered.

(** vector_set: increasing, no duplicates, exactly the emplaced keys; emplace returns true the first time only. *)
Theorem C22_vector_set : forall K (ltb eqb : K -> K -> bool), total_order ltb eqb -> forall ks,
  exists s bs, vset_run ltb eqb [] ks = Some (s, bs) /\
    (forall i j a b, i < j -> nth_error s i = Some a -> nth_error s j = Some b -> ltb a b = true) /\
    (forall x, In x s <-> In x ks) /\
    (forall x, exists b, vset_contains ltb eqb s x = Some b /\ (b = true <-> In x ks)) /\
    length bs = length ks /\
    (forall i b k, nth_error bs i = Some b -> nth_error ks i = Some k -> (b = true <-> ~ In k (firstn i ks))).
Proof.
  intros K ltb eqb TO ks. destruct (vset_run_spec K ltb eqb TO ks []) as (s & bs & E & S & I & L & B); [constructor|].
  exists s, bs. split; auto. assert (I' : forall x, In x s <-> In x ks) by (intros x; rewrite I; cbn; tauto).
  split; [|split; [|split; [|split]]]; auto.
  - clear -S. induction S as [|e m S IH F]; intros i j a b Hij Hi Hj; [destruct i; discriminate|].
    destruct j as [|j]; [lia|]. cbn in Hj. destruct i as [|i]; cbn in Hi.
    + injection Hi as <-. rewrite Forall_forall in F. apply F. eapply nth_error_In; eauto.
    + apply (IH i j); auto; lia.
  - intros x. destruct (vset_contains_spec K ltb eqb TO s x S) as (b & Eb & Hb). exists b. split; auto. rewrite Hb. auto.
  - intros i b k Hb Hk. rewrite (B i b k Hb Hk). cbn. tauto.
Qed.
Print Assumptions C22_vector_set.

(** fut::set with a hash table of sorted vectors (the edge tables of P-automata): a map with two keys. *)
Theorem C22_fut_set : forall H K V (heqb : H -> H -> bool) (ltb eqb : K -> K -> bool),
  (forall a b, heqb a b = true <-> a = b) -> total_order ltb eqb -> forall cs : list (fut_call H K V),
  exists t, fut_run heqb ltb eqb cs = Some t /\
    forall h k, fut_get heqb ltb eqb t h k = Some (tk_run heqb eqb cs h k) /\
      fut_contains heqb ltb eqb t h k = Some (match tk_run heqb eqb cs h k with Some _ => true | None => false end) /\
      (forall v, exists t', fut_emplace heqb ltb eqb t h k v = Some (t', match tk_run heqb eqb cs h k with Some _ => false | None => true end)).
Proof.
  intros H K V heqb ltb eqb HE TO cs. destruct (fut_run_spec H K V heqb ltb eqb HE TO cs) as (t & E & O & L).
  exists t. split; auto. intros h k. rewrite <- L. destruct (fut_look_spec H K V heqb ltb eqb HE TO t h k O) as [A B].
  split; auto. split; auto. intros v. destruct (fut_emplace_spec H K V heqb ltb eqb HE TO t h k v O) as (t' & E' & _). exists t'. auto.
Qed.
Print Assumptions C22_fut_set.

(** The orders used by the library: numbers and rules. *)
Example C22_orders : total_order Nat.ltb Nat.eqb /\ total_order rule_ltb rule_eqb.
Proof. split; [apply nat_total_order|apply rule_total_order]. Qed.
Example C22_example : vm_run Nat.ltb Nat.eqb [VEmplace 5 10; VEmplace 2 20; VEmplace 5 11; VAssign 7 1; VAssign 2 21; VResize 2] = Some [(2, 21); (5, 10)]
  /\ vset_run Nat.ltb Nat.eqb [] [3;1;3;2] = Some ([1;2;3], [true;true;false;true])
  /\ fut_run Nat.eqb Nat.ltb Nat.eqb [FEmplace 1 4 0; FEmplace 2 4 1; FEmplace 1 3 2; FAssign 1 4 9] = Some [(1, [(3, 2); (4, 9)]); (2, [(4, 1)])].
Proof. repeat split. Qed.

(** * C38: trace information *)
(** Reading back what was written gives the same trace information, for all rule ids, labels and states below the
    reserved values; in particular different traces have different encodings. *)
Theorem C38_trace_codec : forall t t', trace_fits t -> trace_fits t' ->
  dec_trace (enc_trace t) = t /\ (enc_trace t = enc_trace t' -> t = t') /\
  (w_is_null (enc_trace t) = true <-> t = TNull).
Proof.
  intros t t' H H'. split; [apply dec_enc; auto|]. split.
  - intros E. rewrite <- (dec_enc t H), <- (dec_enc t' H'), E. auto.
  - split; [|intros ->; reflexivity]. intros E. rewrite <- (dec_enc t H). unfold dec_trace. rewrite E. auto.
Qed.
Print Assumptions C38_trace_codec.

(** operator< is a strict total order on the words. *)
Theorem C38_order : forall a b c, w_ltb a a = false /\ (w_ltb a b = true -> w_ltb b c = true -> w_ltb a c = true) /\
  (a = b \/ w_ltb a b = true \/ w_ltb b a = true).
Proof.
  intros a b c. split; [|split; [|apply w_ltb_total]].
  - destruct (w_ltb a a) eqn:E; auto. apply w_ltb_lex in E. lia.
  - rewrite !w_ltb_lex. lia.
Qed.
Print Assumptions C38_order.

(** operator== does not compare the labels: it equates different traces and is not reflexive for label 0. *)
Theorem C38_equality_refuted :
  (exists t t', trace_fits t /\ trace_fits t' /\ t <> t' /\ w_eqb (enc_trace t) (enc_trace t') = true) /\
  (exists t, trace_fits t /\ w_eqb (enc_trace t) (enc_trace t) = false).
Proof.
  split.
  - exists (TPost 1 2 3), (TPost 1 2 4). unfold trace_fits. repeat split; try discriminate; vm_compute; auto; discriminate.
  - exists (TPost 1 2 0). unfold trace_fits. repeat split; vm_compute; auto; discriminate.
Qed.
Print Assumptions C38_equality_refuted.

(** The reserved values are needed: label 2^32-2 turns a post* trace into a pre* trace. *)
Theorem C38_reserved_refuted : w_is_pre (w_post 1 2 4294967294) = true /\ w_is_null (w_eps max64) = true.
Proof. split; reflexivity. Qed.
Print Assumptions C38_reserved_refuted.

Example C38_example : trace_fits (TPre 7 (Some 3)) /\ dec_trace (enc_trace (TPre 7 (Some 3))) = TPre 7 (Some 3)
  /\ dec_trace (enc_trace (TEps 4)) = TEps 4 /\ dec_trace (enc_trace (TPost 1 2 3)) = TPost 1 2 3 /\ trace_fits (TPost 1 2 3).
Proof. repeat split; try (vm_compute; congruence). Qed.

(** * C48: flags *)
(** A sequence of add/remove calls on an empty mask; flags are numbered 1..n. *)
Inductive fcall := FAdd (i : N) | FRemove (i : N).
Definition fdo (n : N) (m : option N) (c : fcall) : option N :=
  x <- m ;;
  match c with
  | FAdd i => f <- fl_flag n i ;; Some (fl_add x f)
  | FRemove i => f <- fl_flag n i ;; Some (fl_remove n x f)
  end.
Definition fnum (c : fcall) : N := match c with FAdd i => i | FRemove i => i end.
(** The set after the calls: the last call that mentions the flag decides. *)
Fixpoint fspec (cs : list fcall) (i : N) : bool :=
  match cs with
  | [] => false
  | FAdd j :: cs' => if N.eqb i j then true else fspec cs' i
  | FRemove j :: cs' => if N.eqb i j then false else fspec cs' i
  end.

Theorem C48_flags : forall n cs, (n <= 64)%N -> (forall c, In c cs -> (0 < fnum c <= n)%N) ->
  exists m, fold_left (fdo n) (rev cs) (Some 0%N) = Some m /\
    (forall i f, (0 < i <= n)%N -> fl_flag n i = Some f -> fm_needs m f = fspec cs i) /\
    (fm_has_missing m = true <-> exists i, (0 < i <= n)%N /\ fspec cs i = true) /\
    (forall f, In f (fm_missing n m) <-> exists i, (0 < i <= n)%N /\ fspec cs i = true /\ fl_flag n i = Some f).
Proof.
  intros n cs Hn Hc.
  assert (G : exists m, fold_left (fdo n) (rev cs) (Some 0%N) = Some m /\ (m < 2 ^ n)%N /\
            forall i, (0 < i <= n)%N -> N.testbit m (i - 1) = fspec cs i).
  { induction cs as [|c cs IH]; cbn [rev fold_left fspec].
    - exists 0%N. split; auto. split; [apply N.neq_0_lt_0, N.pow_nonzero; lia|]. intros. apply N.bits_0.
    - destruct IH as (m & E & L & B); [intros; apply Hc; right; auto|].
      rewrite fold_left_app, E. cbn [fold_left fdo obind].
      assert (Hi : (0 < fnum c <= n)%N) by (apply Hc; left; auto).
      assert (L2 : (m < 2 ^ flag_bits n)%N).
      { eapply N.lt_le_trans; [apply L|]. apply N.pow_le_mono_r; [lia|apply flag_bits_ge; auto]. }
      destruct c as [i|i]; cbn [fnum] in Hi; rewrite fl_flag_spec by lia; cbn [obind]; eexists; (split; [reflexivity|]); split.
      + apply lt_pow2_bits. intros j Hj. rewrite fl_add_spec, testbit_pow2, (bits_lt_pow2 m n j L Hj). cbn. apply N.eqb_neq. lia.
      + intros k Hk. rewrite fl_add_spec, testbit_pow2, (B k Hk).
        destruct (N.eqb_spec k i) as [E1|E1]; destruct (N.eqb_spec (i - 1) (k - 1)) as [E2|E2]; try lia; try apply orb_true_r; apply orb_false_r.
      + apply lt_pow2_bits. intros j Hj. rewrite fl_remove_spec, (bits_lt_pow2 m n j L Hj) by auto. auto.
      + intros k Hk. rewrite fl_remove_spec, testbit_pow2, (B k Hk) by auto.
        destruct (N.eqb_spec k i) as [E1|E1]; destruct (N.eqb_spec (i - 1) (k - 1)) as [E2|E2]; try lia; cbn [negb]; try apply andb_false_r; apply andb_true_r. }
  destruct G as (m & E & L & B). exists m. split; auto. split; [|split].
  - intros i f Hi Hf. rewrite fl_flag_spec in Hf by lia. injection Hf as <-. unfold fm_needs. rewrite fl_contains_pow. auto.
  - unfold fm_has_missing. rewrite negb_true_iff, N.eqb_neq. split.
    + intros H0. exists (N.log2 m + 1)%N. assert (N.log2 m < n)%N by (apply N.log2_lt_pow2; lia).
      split; [lia|]. rewrite <- B by lia. replace (N.log2 m + 1 - 1)%N with (N.log2 m) by lia. apply N.bit_log2; auto.
    + intros (i & Hi & Hs) ->. rewrite <- B, N.bits_0 in Hs by auto. discriminate.
  - intros f. unfold fm_missing. rewrite fl_split_spec by auto. rewrite in_map_iff. split.
    + intros (j & <- & Hj). apply filter_In in Hj. destruct Hj as [Hj Ht]. apply in_seq in Hj.
      exists (N.of_nat j + 1)%N. split; [lia|]. rewrite <- B, fl_flag_spec by lia.
      replace (N.of_nat j + 1 - 1)%N with (N.of_nat j) by lia. auto.
    + intros (i & Hi & Hs & Hf). rewrite fl_flag_spec in Hf by lia. injection Hf as <-.
      exists (N.to_nat (i - 1)). rewrite Nnat.N2Nat.id. split; auto. apply filter_In. split; [apply in_seq; lia|].
      rewrite Nnat.N2Nat.id, B; auto.
Qed.
Print Assumptions C48_flags.

(** fill(i) is the set of the flags 1..i, also when i = n fills the whole type; is_single_flag recognises single flags. *)
Theorem C48_fill_single : forall n, (n <= 64)%N ->
  (forall i j f g, (i <= n)%N -> (0 < j <= n)%N -> fl_fill n i = Some f -> fl_flag n j = Some g -> (fl_contains f g = true <-> (j <= i)%N)) /\
  (forall i, (i <= n)%N -> exists f, fl_fill n i = Some f) /\
  (forall x, (x < 2 ^ n)%N -> (fl_single x = true <-> exists i, (0 < i <= n)%N /\ fl_flag n i = Some x)).
Proof.
  intros n Hn. split; [|split].
  - intros i j f g Hi Hj Hf Hg. destruct (fl_fill_spec n i Hn Hi) as (f' & E & B). assert (f' = f) by congruence. subst f'.
    rewrite fl_flag_spec in Hg by lia. injection Hg as <-. rewrite fl_contains_pow, B, N.ltb_lt. lia.
  - intros i Hi. destruct (fl_fill_spec n i Hn Hi) as (f & E & _). eauto.
  - intros x Hx. rewrite fl_single_spec. split.
    + intros [i ->]. apply N.pow_lt_mono_r_iff in Hx; [|lia]. exists (i + 1)%N. split; [lia|]. rewrite fl_flag_spec by lia.
      f_equal. f_equal. lia.
    + intros (i & Hi & E). rewrite fl_flag_spec in E by lia. injection E as <-. eauto.
Qed.
Print Assumptions C48_fill_single.
Example C48_example : fold_left (fdo 3) [FAdd 1; FAdd 3; FRemove 1; FAdd 2] (Some 0%N) = Some 6%N /\ fm_missing 3 6 = [2%N; 4%N]
  /\ fl_fill 64 64 = Some max64 /\ fl_fill 8 8 = Some 255%N /\ fl_fill 3 2 = Some 3%N.
Proof. repeat split. Qed.

(** * C49: is_disjoint *)
(** For sorted vectors (sorted by a strict weak order on keys; the vectors may have different element types): the
    function returns, never reads past the end, and says true exactly when no two elements are equivalent. *)
Theorem C49_is_disjoint : forall T U K (kt : T -> K) (ku : U -> K) (lt : K -> K -> bool),
  (forall a b, lt a b = true -> lt b a = false) -> (forall a b c, lt a c = true -> lt a b = true \/ lt b c = true) ->
  forall a b,
  (forall i j x y, i < j -> nth_error a i = Some x -> nth_error a j = Some y -> lt (kt y) (kt x) = false) ->
  (forall i j x y, i < j -> nth_error b i = Some x -> nth_error b j = Some y -> lt (ku y) (ku x) = false) ->
  exists r, is_disjoint (fun x y => lt (kt x) (ku y)) (fun y x => lt (ku y) (kt x)) a b = Some (Some r) /\
    (r = false <-> exists x y, In x a /\ In y b /\ lt (kt x) (ku y) = false /\ lt (ku y) (kt x) = false).
Proof.
  intros T U K kt ku lt H1 H2 a b Sa Sb. destruct (is_disjoint_spec T U K kt ku lt H1 H2 a b Sa Sb) as (r & E & R).
  exists r. split; auto. split.
  - intros ->.
    destruct (existsb (fun x => existsb (fun y => negb (lt (kt x) (ku y)) && negb (lt (ku y) (kt x))) b) a) eqn:Ex.
    + apply existsb_exists in Ex. destruct Ex as (x & Hx & Ex). apply existsb_exists in Ex. destruct Ex as (y & Hy & Ex).
      apply andb_true_iff in Ex. rewrite !negb_true_iff in Ex. exists x, y. tauto.
    + exfalso. assert (false = true); [|discriminate]. apply R. intros x y Hx Hy.
      destruct (lt (kt x) (ku y)) eqn:E1; auto. destruct (lt (ku y) (kt x)) eqn:E2; auto.
      assert (existsb (fun x => existsb (fun y => negb (lt (kt x) (ku y)) && negb (lt (ku y) (kt x))) b) a = true); [|congruence].
      apply existsb_exists. exists x. split; auto. apply existsb_exists. exists y. rewrite E1, E2. auto.
  - intros (x & y & Hx & Hy & E1 & E2). destruct r; auto. destruct (proj1 R eq_refl x y Hx Hy); congruence.
Qed.
Print Assumptions C49_is_disjoint.
(** For numbers: exactly when there is no common element. *)
Theorem C49_is_disjoint_nat : forall a b,
  (forall i j x y, i < j -> nth_error a i = Some x -> nth_error a j = Some y -> x <= y) ->
  (forall i j x y, i < j -> nth_error b i = Some x -> nth_error b j = Some y -> x <= y) ->
  exists r, is_disjoint Nat.ltb Nat.ltb a b = Some (Some r) /\ (r = true <-> forall x, In x a -> ~ In x b).
Proof.
  intros a b Sa Sb.
  destruct (C49_is_disjoint nat nat nat (fun x => x) (fun x => x) Nat.ltb) with (a := a) (b := b) as (r & E & R).
  - intros x y H. apply Nat.ltb_lt in H. apply Nat.ltb_ge. lia.
  - intros x y z H. rewrite !Nat.ltb_lt in *. lia.
  - intros i j x y Hij Hi Hj. apply Nat.ltb_ge. eapply Sa; eauto.
  - intros i j x y Hij Hi Hj. apply Nat.ltb_ge. eapply Sb; eauto.
  - exists r. split; auto. split.
    + intros -> x Hx Hy. assert (true = false); [|discriminate]. apply R. exists x, x. rewrite Nat.ltb_irrefl. auto.
    + intros H. destruct r; auto. destruct (proj1 R eq_refl) as (x & y & Hx & Hy & L1 & L2).
      apply Nat.ltb_ge in L1, L2. assert (x = y) by lia. subst. exfalso. eapply H; eauto.
Qed.
Print Assumptions C49_is_disjoint_nat.
Example C49_example : is_disjoint Nat.ltb Nat.ltb [1;1;4;7;9] [2;3;8;8;10] = Some (Some true)
  /\ is_disjoint Nat.ltb Nat.ltb [1;4;7] [2;7;8] = Some (Some false).
Proof. split; reflexivity. Qed.

(** * C53: work containers *)
(** priority_set: as long as no element is emplaced again after it was popped, a non-empty set hands out an element that
    was not handed out before and that no pending element exceeds, and when the set is empty every emplaced element has
    been handed out exactly once. *)
Theorem C53_priority_set : forall W (comp : W -> W -> bool) top, top_max W comp top -> top_push W top ->
  forall cs s out, ps_use W top cs s out ->
  (ps_empty s = false -> exists x s', ps_top top s = Some x /\ ps_pop top s = Some s' /\ ~ In (snd x) (map snd out) /\
     emplaced W cs (fst x) (snd x) /\ (forall w e, emplaced W cs w e -> ~ In e (map snd out) -> comp (fst x) w = false)) /\
  (ps_empty s = true -> NoDup (map snd out) /\ forall e, In e (map snd out) <-> exists w, emplaced W cs w e).
Proof.
  intros W comp top TM TP cs s out H. split.
  - apply ps_progress; auto.
  - eapply ps_all_out; eauto.
Qed.
Print Assumptions C53_priority_set.

(** A concrete top function for numbers: first position of a greatest weight. *)
Fixpoint argmax (q : list (nat * nat)) (best pos cur : nat) : nat :=
  match q with [] => pos | (w, _) :: q' => if Nat.ltb best w then argmax q' w cur (S cur) else argmax q' best pos (S cur) end.
Definition first_max (q : list (nat * nat)) : nat := match q with [] => 0 | (w, _) :: q' => argmax q' w 0 1 end.
Lemma argmax_spec : forall q best pos cur,
  let r := argmax q best pos cur in
  (r = pos /\ forall y, In y q -> fst y <= best) \/
  (cur <= r /\ exists x, nth_error q (r - cur) = Some x /\ best < fst x /\ forall y, In y q -> fst y <= fst x).
Proof.
  induction q as [|[w e] q IH]; intros best pos cur; cbn; [left; split; auto; tauto|].
  destruct (Nat.ltb best w) eqn:E.
  - apply Nat.ltb_lt in E. destruct (IH w cur (S cur)) as [[R H]|(L & x & N & B & H)]; cbn zeta in *.
    + right. rewrite R. split; auto. exists (w, e). rewrite Nat.sub_diag. split; auto. split; auto.
      intros y [<-|Hy]; auto.
    + right. split; [lia|]. exists x. replace (argmax q w cur (S cur) - cur) with (S (argmax q w cur (S cur) - S cur)) by lia.
      split; auto. split; [lia|]. intros y [<-|Hy]; cbn; auto. lia.
  - apply Nat.ltb_ge in E. destruct (IH best pos (S cur)) as [[R H]|(L & x & N & B & H)]; cbn zeta in *.
    + left. split; auto. intros y [<-|Hy]; auto.
    + right. split; [lia|]. exists x. replace (argmax q best pos (S cur) - cur) with (S (argmax q best pos (S cur) - S cur)) by lia.
      split; auto. split; auto. intros y [<-|Hy]; cbn; auto. lia.
Qed.
Lemma argmax_snoc : forall q x best pos cur, argmax (q ++ [x]) best pos cur = argmax q best pos cur \/ argmax (q ++ [x]) best pos cur = cur + length q.
Proof.
  induction q as [|[w e] q IH]; intros [w' e'] best pos cur; cbn.
  - destruct (best <? w'); auto.
  - destruct (best <? w); rewrite Nat.add_succ_r; apply IH.
Qed.
Example C53_top_exists : top_max nat Nat.ltb first_max /\ top_push nat first_max.
Proof.
  split.
  - intros [|[w e] q] H; [congruence|]. cbn. destruct (argmax_spec q w 0 1) as [[R M]|(L & x & N & B & M)]; cbn zeta in *.
    + rewrite R. exists (w, e). split; auto. intros y [<-|Hy]; apply Nat.ltb_ge; auto.
    + exists x. destruct (argmax q w 0 1) as [|r] eqn:E; [lia|]. cbn. rewrite Nat.sub_succ, Nat.sub_0_r in N. split; auto.
      intros y [<-|Hy]; apply Nat.ltb_ge; cbn; auto. lia.
  - intros [|[w e] q] x H; [congruence|]. cbn. destruct (argmax_snoc q x w 0 1); auto.
Qed.
Example C53_example : ps_run first_max [PEmplace 3 10; PEmplace 7 11; PEmplace 5 10; PPop; PPop] = Some (mk_pset [] [10; 11], [(7, 11); (5, 10)]).
Proof. reflexivity. Qed.

(** Without that discipline the class invariant breaks: an element emplaced again after it was popped is handed out a
    second time, and the assertion in pop fails. *)
Theorem C53_priority_set_refuted : exists s out,
  ps_run first_max [PEmplace 3 10; PPop; PEmplace 2 10] = Some (s, out) /\ In 10 (map snd out) /\
  ps_top first_max s = Some (2, 10) /\ ps_pop first_max s = None.
Proof. eexists _, _. split; [reflexivity|]. repeat split; cbn; auto. Qed.
Print Assumptions C53_priority_set_refuted.

(** fixed_point_workset: for every derived class, whenever run() returns, every inserted element has been handed to
    step_with after its insertion or is still waiting; nothing else is handed out; if no step_with stops the loop and the
    round limit was not what ended it, nothing is waiting. *)
Theorem C53_workset : forall S enf (sw : bool -> S -> nat -> S * list nat * bool) fuel limit s ins w,
  ws_run enf sw fuel (ws_init limit s ins) = Some (Some w) ->
  (forall later e earlier, ws_log w = later ++ EIns e :: earlier -> In (EOut e) later \/ In e (ws_work w ++ ws_next w)) /\
  (forall later e earlier, ws_log w = later ++ EOut e :: earlier -> In (EIns e) earlier) /\
  ((forall b s' e, snd (sw b s' e) = true) -> ws_done w = true -> ws_work w = [] /\ ws_next w = []) /\
  ws_stop w = true.
Proof.
  intros S enf sw fuel limit s ins w H. destruct (ws_run_inv S enf sw fuel limit s ins w H) as (A & B & _).
  split; [exact A|]. split; [exact B|]. split.
  - intros NR. apply (ws_run_done S enf sw NR fuel limit s ins w H).
  - unfold ws_run in H. destruct (ws_loop enf sw false fuel (ws_init limit s ins)) as [[w1|]|]; cbn in H; try discriminate.
    unfold ws_finalize in H. revert H. generalize (mk_wset (ws_done w1) (ws_limit w1) 0 (ws_work w1) (ws_next w1) (ws_s w1) (ws_log w1)).
    clear. induction fuel as [|fuel IH]; intros v H; cbn in H; destruct (ws_stop v) eqn:E; try congruence; try (injection H as <-; auto).
    destruct (ws_step enf sw true v) as [v1|]; [|discriminate]. cbn in H. eapply IH; eauto.
Qed.
Print Assumptions C53_workset.
(** The loop itself is always defined. *)
Theorem C53_workset_defined : forall S enf (sw : bool -> S -> nat -> S * list nat * bool) fuel w, ws_run enf sw fuel w <> None.
Proof.
  intros S enf sw fuel w.
  assert (G : forall b fuel v, ws_loop enf sw b fuel v <> None).
  { intros b. induction fuel0 as [|k IH]; intros v; cbn; destruct (ws_stop v); try discriminate.
    destruct (ws_step_some S enf sw b v) as (v' & ->). cbn. apply IH. }
  unfold ws_run. destruct (ws_loop enf sw false fuel w) as [[w1|]|] eqn:E; cbn; [apply G|discriminate|exfalso; eapply G; eauto].
Qed.
Print Assumptions C53_workset_defined.
(** Example: a countdown; every element n re-inserts n-1. With round limit 0, the default of the constructor, nothing is
    handed out at all. *)
Definition countdown (_ : bool) (s n : nat) : nat * list nat * bool := (S s, match n with 0 => [] | S m => [m] end, true).
Example C53_workset_example :
  ws_run true countdown 20 (ws_init 9 0 [3; 1; 3]) =
    Some (Some (mk_wset true 9 0 [] [] 6 [EOut 0; EIns 0; EOut 1; EOut 0; EIns 1; EOut 2; EIns 0; EOut 1; EIns 2; EOut 3; EIns 3; EIns 1; EIns 3])) /\
  ws_run true countdown 20 (ws_init 0 0 [3]) = Some (Some (mk_wset false 0 0 [] [3] 0 [EIns 3])).
Proof. split; reflexivity. Qed.
