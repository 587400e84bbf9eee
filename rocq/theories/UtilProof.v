(** Proofs about trace_t, flags, priority_set and fixed_point_workset. *)
From Coq Require Import List Arith Lia Bool NArith Sorting.Permutation.
From Verif Require Import Base BaseFacts PdaModel PdaProof AutModel UtilModel.
Import ListNotations.

(** * trace_t *)
(** Field values the encoding is meant for. *)
Definition trace_fits (t : trace) : Prop :=
  match t with
  | TNull => True
  | TPre r None => (N.of_nat r <= max64)%N
  | TPre r (Some q) => (N.of_nat r <= max64)%N /\ (N.of_nat q < max64)%N
  | TPost p r l => (N.of_nat p <= max64)%N /\ (N.of_nat r <= max64)%N /\ (N.of_nat l < max32 - 1)%N
  | TEps q => (N.of_nat q < max64)%N
  end.

Lemma dec_enc : forall t, trace_fits t -> dec_trace (enc_trace t) = t.
Proof.
  intros t Ht. destruct t as [|r [q|]|p r l|q]; cbn [trace_fits] in Ht; unfold dec_trace, enc_trace.
  - reflexivity.
  - assert (w_is_null (w_pre (N.of_nat r) (N.of_nat q)) = false) as ->.
    { unfold w_is_null, w_pre. cbn [w_state w_rule w_label]. destruct (N.eqb_spec (N.of_nat q) max64); [lia|auto]. }
    cbn. destruct (N.eqb_spec (N.of_nat q) max64); [lia|]. rewrite !Nnat.Nat2N.id. auto.
  - assert (w_is_null (w_pre (N.of_nat r) max64) = false) as ->.
    { unfold w_is_null, w_pre. cbn [w_state w_rule w_label]. apply andb_false_r. }
    change (w_is_pre (w_pre (N.of_nat r) max64)) with true. cbn [w_state w_rule w_pre].
    rewrite N.eqb_refl, Nnat.Nat2N.id. auto.
  - destruct Ht as (H1 & H2 & H3). unfold w_is_null, w_is_pre, w_is_eps, w_post. cbn [w_state w_rule w_label].
    destruct (N.eqb_spec (N.of_nat l) max32); [lia|]. rewrite andb_false_r.
    destruct (N.eqb_spec (N.of_nat l) (max32 - 1)); [lia|]. rewrite !Nnat.Nat2N.id. auto.
  - assert (w_is_null (w_eps (N.of_nat q)) = false) as ->.
    { unfold w_is_null, w_eps. cbn [w_state w_rule w_label]. destruct (N.eqb_spec (N.of_nat q) max64); [lia|auto]. }
    unfold w_is_pre, w_is_eps, w_eps. cbn [w_state w_rule w_label].
    destruct (N.eqb_spec max32 (max32 - 1)) as [E|E]; [discriminate E|]. rewrite N.eqb_refl, Nnat.Nat2N.id. auto.
Qed.

Lemma w_ltb_total : forall a b, a = b \/ w_ltb a b = true \/ w_ltb b a = true.
Proof.
  intros [a1 a2 a3] [b1 b2 b3]. unfold w_ltb. cbn.
  destruct (N.lt_trichotomy a1 b1) as [H|[->|H]].
  - right; left. apply N.ltb_lt in H. rewrite H. auto.
  - rewrite N.eqb_refl, N.ltb_irrefl. cbn. destruct (N.lt_trichotomy a2 b2) as [H|[->|H]].
    + right; left. apply N.ltb_lt in H. rewrite H. auto.
    + rewrite N.eqb_refl, N.ltb_irrefl. cbn. destruct (N.lt_trichotomy a3 b3) as [H|[->|H]]; auto.
      * right; left. apply N.ltb_lt; auto.
      * right; right. apply N.ltb_lt; auto.
    + right; right. apply N.ltb_lt in H. rewrite H. auto.
  - right; right. apply N.ltb_lt in H. rewrite H. auto.
Qed.
Lemma w_ltb_lex : forall a b, w_ltb a b = true <->
  (w_state a < w_state b)%N \/ (w_state a = w_state b /\ ((w_rule a < w_rule b)%N \/ (w_rule a = w_rule b /\ (w_label a < w_label b)%N))).
Proof.
  intros a b. unfold w_ltb. rewrite !orb_true_iff, !andb_true_iff, !orb_true_iff, !andb_true_iff, !N.ltb_lt, !N.eqb_eq. tauto.
Qed.

(** * flags *)
Local Open Scope N_scope.

Lemma flag_bits_ge : forall n, n <= 64 -> n <= flag_bits n.
Proof.
  intros n H. unfold flag_bits. destruct (N.leb_spec n 8); [lia|]. destruct (N.leb_spec n 16); [lia|].
  destruct (N.leb_spec n 32); lia.
Qed.
Lemma shiftl_1 : forall i, N.shiftl 1 i = 2 ^ i.
Proof. intros. rewrite N.shiftl_mul_pow2. apply N.mul_1_l. Qed.
Lemma to_flag_pow : forall n i, n <= 64 -> i < n -> to_flag n (N.shiftl 1 i) = 2 ^ i.
Proof.
  intros n i Hn Hi. unfold to_flag. rewrite shiftl_1. apply N.mod_small. apply N.pow_lt_mono_r; [lia|].
  pose proof (flag_bits_ge n Hn). lia.
Qed.
Lemma testbit_pow2 : forall i j, N.testbit (2 ^ i) j = N.eqb i j.
Proof. intros. apply N.pow2_bits_eqb. Qed.

Lemma fl_contains_pow : forall m i, fl_contains m (2 ^ i) = N.testbit m i.
Proof.
  intros m i. unfold fl_contains. destruct (N.testbit m i) eqn:E.
  - apply N.eqb_eq. apply N.bits_inj. intros j. rewrite N.land_spec, testbit_pow2.
    destruct (N.eqb_spec i j) as [<-|Hj]; [rewrite E; auto|apply andb_false_r].
  - apply N.eqb_neq. intros H. assert (N.testbit (N.land m (2 ^ i)) i = N.testbit (2 ^ i) i) by (rewrite H; auto).
    rewrite N.land_spec, testbit_pow2, N.eqb_refl, E in H0. discriminate.
Qed.
Lemma fl_contains_spec : forall m f, fl_contains m f = true <-> forall i, N.testbit f i = true -> N.testbit m i = true.
Proof.
  intros m f. unfold fl_contains. rewrite N.eqb_eq. split.
  - intros H i Hi. rewrite <- H, N.land_spec in Hi. apply andb_true_iff in Hi. tauto.
  - intros H. apply N.bits_inj. intros i. rewrite N.land_spec. destruct (N.testbit f i) eqn:E; [rewrite H; auto|apply andb_false_r].
Qed.
Lemma fl_add_spec : forall m f i, N.testbit (fl_add m f) i = N.testbit m i || N.testbit f i.
Proof. intros. apply N.lor_spec. Qed.
Lemma fl_remove_spec : forall n m f i, m < 2 ^ flag_bits n ->
  N.testbit (fl_remove n m f) i = N.testbit m i && negb (N.testbit f i).
Proof.
  intros n m f i Hm. unfold fl_remove. rewrite N.land_spec, N.lxor_spec.
  destruct (N.ltb_spec i (flag_bits n)).
  - rewrite N.ones_spec_low by auto. destruct (N.testbit f i); auto.
  - assert (N.testbit m i = false) as ->; auto.
    destruct (N.eq_dec m 0) as [->|H0]; [apply N.bits_0|]. apply N.bits_above_log2.
    apply N.log2_lt_pow2 in Hm; lia.
Qed.
Lemma lt_pow2_bits : forall m k, (forall i, k <= i -> N.testbit m i = false) -> m < 2 ^ k.
Proof.
  intros m k H. destruct (N.eq_dec m 0) as [->|H0]; [apply N.neq_0_lt_0, N.pow_nonzero; lia|].
  apply N.log2_lt_pow2; [lia|]. destruct (N.lt_ge_cases (N.log2 m) k) as [|Hk]; auto.
  apply H in Hk. rewrite N.bit_log2 in Hk by auto. discriminate.
Qed.
Lemma bits_lt_pow2 : forall m k i, m < 2 ^ k -> k <= i -> N.testbit m i = false.
Proof.
  intros m k i Hm Hi. destruct (N.eq_dec m 0) as [->|H0]; [apply N.bits_0|]. apply N.bits_above_log2.
  apply N.log2_lt_pow2 in Hm; lia.
Qed.

Lemma fl_single_spec : forall x, fl_single x = true <-> exists i, x = 2 ^ i.
Proof.
  intros x. unfold fl_single. rewrite andb_true_iff, negb_true_iff, N.eqb_neq, N.eqb_eq. split.
  - intros [H0 H1]. exists (N.log2 x). apply N.bits_inj. intros i. rewrite testbit_pow2.
    destruct (N.eqb_spec (N.log2 x) i) as [<-|Hi]; [apply N.bit_log2; auto|].
    destruct (N.lt_ge_cases (N.log2 x) i) as [L|L]; [apply N.bits_above_log2; auto|].
    assert (Hlog : N.log2 (x - 1) = N.log2 x \/ x = 2 ^ N.log2 x).
    { destruct (N.eq_dec x (2 ^ N.log2 x)) as [E|E]; auto. left.
      pose proof (N.log2_spec x ltac:(lia)) as [L1 L2]. apply N.log2_unique; lia. }
    destruct Hlog as [Hl|Hl].
    + exfalso. assert (B : N.testbit (N.land x (x - 1)) (N.log2 x) = true).
      { rewrite N.land_spec, N.bit_log2 by auto. rewrite <- Hl. cbn. apply N.bit_log2.
        intros E. rewrite E in Hl. cbn in Hl. assert (x = 1) by lia. subst. cbn in *. lia. }
      rewrite H1, N.bits_0 in B. discriminate.
    + rewrite Hl at 1. rewrite testbit_pow2. apply N.eqb_neq. auto.
  - intros [i ->]. split; [apply N.pow_nonzero; lia|].
    apply N.bits_inj. intros j. rewrite N.bits_0, N.land_spec, testbit_pow2.
    destruct (N.eqb_spec i j) as [<-|]; auto. cbn.
    assert (Hs : 2 ^ i - 1 = N.ones i) by (rewrite N.ones_equiv; lia).
    rewrite Hs. apply N.ones_spec_high. lia.
Qed.

Lemma fl_fill_spec : forall n i, n <= 64 -> i <= n -> exists f, fl_fill n i = Some f /\ forall j, N.testbit f j = N.ltb j i.
Proof.
  intros n i Hn Hi. unfold fl_fill. destruct (N.leb_spec i n); [|lia].
  eexists. split; [reflexivity|]. intros j.
  destruct (N.eqb_spec i 0) as [->|H0].
  { rewrite N.bits_0. symmetry. apply N.ltb_ge. lia. }
  assert (Hones : forall k, N.testbit (2 ^ k - 1) j = N.ltb j k).
  { intros k. assert (Hs : 2 ^ k - 1 = N.ones k) by (rewrite N.ones_equiv; lia). rewrite Hs.
    destruct (N.ltb_spec j k); [apply N.ones_spec_low|apply N.ones_spec_high]; lia. }
  destruct (N.eqb_spec i n) as [->|Hne].
  - cbn zeta. rewrite to_flag_pow by lia. rewrite N.lor_spec, testbit_pow2, Hones.
    destruct (N.eqb_spec (n - 1) j); destruct (N.ltb_spec j (n - 1)); destruct (N.ltb_spec j n); auto; lia.
  - rewrite to_flag_pow by lia. unfold to_flag. rewrite N.mod_small; [apply Hones|].
    assert (2 ^ i < 2 ^ flag_bits n) by (apply N.pow_lt_mono_r; [lia|pose proof (flag_bits_ge n Hn); lia]). lia.
Qed.

Lemma fl_flag_spec : forall n i, n <= 64 -> 0 < i -> i <= n -> fl_flag n i = Some (2 ^ (i - 1)).
Proof.
  intros n i Hn H0 Hi. unfold fl_flag. destruct (N.leb_spec i n); [|lia].
  destruct (N.eqb_spec i 0); [lia|]. rewrite to_flag_pow by lia. auto.
Qed.

Lemma fl_split_spec : forall n m, n <= 64 ->
  fl_split n m = map (fun i => 2 ^ N.of_nat i) (filter (fun i => N.testbit m (N.of_nat i)) (seq 0 (N.to_nat n))).
Proof.
  intros n m Hn. unfold fl_split.
  assert (G : forall l, (forall i, In i l -> N.of_nat i < n) ->
    filter (fl_contains m) (map (fun i => to_flag n (N.shiftl 1 (N.of_nat i))) l) =
    map (fun i => 2 ^ N.of_nat i) (filter (fun i => N.testbit m (N.of_nat i)) l)).
  { induction l as [|a l IH]; intros Hl; cbn [map filter]; auto. rewrite to_flag_pow; auto; [|apply Hl; left; auto].
    rewrite fl_contains_pow. destruct (N.testbit m (N.of_nat a)); cbn [map]; rewrite IH; auto; intros; apply Hl; right; auto. }
  apply G. intros i Hi. apply in_seq in Hi. lia.
Qed.
Local Close Scope N_scope.

(** * priority_set *)
Section PrioritySet.
  Variables (W : Type) (comp : W -> W -> bool) (top : list (W * nat) -> nat).
  (** top() returns an element that no other exceeds. *)
  Definition top_max : Prop := forall q, q <> [] ->
    exists x, nth_error q (top q) = Some x /\ forall y, In y q -> comp (fst x) (fst y) = false.
  (** push changes the top at most to the new element. *)
  Definition top_push : Prop := forall q x, q <> [] -> top (q ++ [x]) = top q \/ top (q ++ [x]) = length q.

  (** Use of a priority_set: pop only when it is not empty, and do not emplace an element after it was popped. *)
  Inductive ps_use : list (ps_call W) -> pset W -> list (W * nat) -> Prop :=
  | use_nil : ps_use [] (mk_pset [] []) []
  | use_emplace : forall cs s out w e, ps_use cs s out -> ~ In e (map snd out) ->
      ps_use (cs ++ [PEmplace w e]) (ps_emplace s w e) out
  | use_pop : forall cs s out x s', ps_use cs s out -> ps_top top s = Some x -> ps_pop top s = Some s' ->
      ps_use (cs ++ [PPop]) s' (out ++ [x]).

  Hypothesis TM : top_max.
  Hypothesis TP : top_push.

  Lemma remove_at_split : forall A (l : list A) i x, nth_error l i = Some x -> exists l1 l2, l = l1 ++ x :: l2 /\ remove_at i l = l1 ++ l2.
  Proof.
    intros A l i x H. apply nth_error_split in H. destruct H as (l1 & l2 & -> & <-). exists l1, l2. split; auto.
    unfold remove_at. rewrite firstn_app, firstn_all, Nat.sub_diag. cbn [firstn]. rewrite app_nil_r.
    f_equal. change (x :: l2) with ([x] ++ l2). rewrite app_assoc.
    rewrite skipn_app. rewrite skipn_all2 by (rewrite app_length; cbn; lia). rewrite app_length. cbn.
    replace (length l1 - (length l1 + 1)) with 0 by lia. replace (S (length l1) - (length l1 + 1)) with 0 by lia. auto.
  Qed.

  Lemma ps_skip_spec : forall fuel q sn, length q <= fuel -> exists q', ps_skip top fuel q sn = Some q' /\
    (forall y, In y q' -> In y q) /\ (forall y, In y q -> ~ In (snd y) sn -> In y q') /\
    (q' <> [] -> exists x, nth_error q' (top q') = Some x /\ ~ In (snd x) sn).
  Proof.
    induction fuel as [|fuel IH]; intros q sn Hf.
    - destruct q; [|cbn in Hf; lia]. exists []. cbn. repeat split; auto. tauto.
    - destruct q as [|a q0]; [exists []; cbn; repeat split; auto; tauto|].
      cbn [ps_skip]. remember (a :: q0) as q eqn:Hq0. destruct (TM q) as (x & Ex & Mx); [subst q; discriminate|].
      rewrite Ex. cbn. destruct (memb (snd x) sn) eqn:M.
      + apply memb_In in M. destruct (remove_at_split _ q (top q) x Ex) as (l1 & l2 & Eq & Er). rewrite Er.
        destruct (IH (l1 ++ l2) sn) as (q' & R1 & R2 & R3 & R4).
        { apply (f_equal (@length _)) in Eq. rewrite app_length in *. cbn in Eq, Hf. lia. }
        exists q'. split; auto. split; [|split]; auto.
        * intros y Hy. apply R2 in Hy. cut (In y q); [auto|]. rewrite Eq. apply in_app_or in Hy. apply in_or_app. cbn. tauto.
        * intros y Hy Hn. apply R3; auto. rewrite Eq in Hy. apply in_app_or in Hy. apply in_or_app.
          destruct Hy as [Hy|[->|Hy]]; auto. contradiction.
      + exists q. split; auto. split; auto. split; auto. intros _. exists x. split; auto.
        intros H. apply memb_In in H. congruence.
  Qed.

  Definition emplaced (cs : list (ps_call W)) (w : W) (e : nat) : Prop := In (PEmplace w e) cs.
  Lemma ps_inv : forall cs s out, ps_use cs s out ->
    (forall e, In e (seen s) <-> In e (map snd out)) /\ NoDup (map snd out) /\
    (forall w e, In (w, e) (pq s) -> emplaced cs w e) /\
    (forall w e, In (w, e) out -> emplaced cs w e) /\
    (forall w e, emplaced cs w e -> ~ In e (map snd out) -> In (w, e) (pq s)) /\
    (pq s <> [] -> exists x, ps_top top s = Some x /\ ~ In (snd x) (seen s)).
  Proof.
    intros cs s out H. induction H as [|cs s out w e H IH Hn|cs s out x s' H IH Ht Hp].
    - repeat split; cbn; try tauto; try constructor.
    - destruct IH as (I1 & I2 & I3 & I3' & I4 & I5). split; [exact I1|]. split; [exact I2|]. split; [|split; [|split]].
      + cbn. intros w' e' Hi. apply in_app_or in Hi. destruct Hi as [Hi|[Hi|[]]].
        * apply in_or_app. left. apply I3; auto.
        * injection Hi as <- <-. apply in_or_app. right. left. auto.
      + intros w' e' Hi. apply in_or_app. left. apply I3'; auto.
      + intros w' e' Hi Hni. apply in_app_or in Hi. cbn. apply in_or_app. destruct Hi as [Hi|[Hi|[]]].
        * left. apply I4; auto.
        * injection Hi as <- <-. right. left. auto.
      + intros _. cbn. unfold ps_top in *. cbn [pq].
        destruct (pq s) as [|a q] eqn:Eq.
        * unfold ps_emplace. cbn [pq seen]. rewrite Eq. cbn [app]. exists (w, e). destruct (TM [(w, e)]) as (x & Ex & _); [discriminate|].
          destruct (top [(w, e)]) as [|[|k]]; cbn in *; try discriminate. split; auto. intros Hx. apply Hn, I1. exact Hx.
        * destruct I5 as (x & Ex & Nx); [discriminate|]. rewrite <- Eq in *. unfold ps_emplace. cbn [pq seen].
          destruct (TP (pq s) (w, e)) as [T|T]; [rewrite Eq; discriminate| |]; rewrite T.
          { exists x. rewrite nth_error_app1; auto. apply nth_error_Some. congruence. }
          { exists (w, e). rewrite nth_error_app2, Nat.sub_diag by lia. split; auto. intros Hx. apply Hn, I1. exact Hx. }
    - destruct IH as (I1 & I2 & I3 & I3' & I4 & I5). unfold ps_pop in Hp. rewrite Ht in Hp. cbn [obind] in Hp.
      destruct (memb (snd x) (seen s)) eqn:M; [discriminate|].
      assert (Nx : ~ In (snd x) (map snd out)) by (rewrite <- I1; intros Hx; apply memb_In in Hx; congruence).
      unfold ps_top in Ht. destruct (remove_at_split _ (pq s) _ x Ht) as (l1 & l2 & Eq & Er). rewrite Er in Hp.
      destruct (ps_skip_spec (length (l1 ++ l2)) (l1 ++ l2) (snd x :: seen s)) as (q' & R1 & R2 & R3 & R4); [lia|].
      rewrite R1 in Hp. cbn in Hp. injection Hp as <-. cbn [pq seen].
      split; [|split; [|split; [|split; [|split]]]].
      + intros e. cbn. rewrite map_app, in_app_iff, <- I1. cbn. tauto.
      + rewrite map_app. cbn. apply NoDup_app_snoc; auto.
      + intros w e Hi. apply in_or_app. left. apply I3. rewrite Eq. apply R2 in Hi. apply in_app_or in Hi. apply in_or_app. cbn. tauto.
      + intros w e Hi. apply in_or_app. left. apply in_app_or in Hi. destruct Hi as [Hi|[->|[]]]; [apply I3'; auto|].
        apply I3. rewrite Eq. apply in_elt.
      + intros w e Hi Hn. apply in_app_or in Hi. destruct Hi as [Hi|[Hi|[]]]; [|discriminate].
        rewrite map_app, in_app_iff in Hn. cbn in Hn. apply R3.
        * assert (Hq : In (w, e) (pq s)) by (apply I4; auto). rewrite Eq in Hq. apply in_app_or in Hq. apply in_or_app.
          destruct Hq as [Hq|[Hq|Hq]]; auto. subst x. cbn in Hn. tauto.
        * cbn. rewrite I1. intros [Hx|Hx]; auto.
      + intros Hq. apply R4 in Hq. destruct Hq as (y & Ey & Ny). exists y. auto.
  Qed.

  Lemma ps_progress : forall cs s out, ps_use cs s out -> ps_empty s = false ->
    exists x s', ps_top top s = Some x /\ ps_pop top s = Some s' /\ ~ In (snd x) (map snd out) /\ emplaced cs (fst x) (snd x) /\
      (forall w e, emplaced cs w e -> ~ In e (map snd out) -> comp (fst x) w = false).
  Proof.
    intros cs s out H He. destruct (ps_inv cs s out H) as (I1 & I2 & I3 & _ & I4 & I5).
    assert (Hq : pq s <> []) by (unfold ps_empty in He; destruct (pq s); [discriminate|discriminate]).
    destruct (I5 Hq) as (x & Tx & Nx). exists x. unfold ps_pop. rewrite Tx. cbn [obind].
    destruct (memb (snd x) (seen s)) eqn:M; [apply memb_In in M; contradiction|].
    destruct (ps_skip_spec (length (remove_at (top (pq s)) (pq s))) (remove_at (top (pq s)) (pq s)) (snd x :: seen s)) as (q' & R1 & _); [lia|].
    rewrite R1. cbn. eexists. split; auto. split; auto. split; [rewrite <- I1; auto|].
    destruct (TM (pq s) Hq) as (y & Ey & My). unfold ps_top in Tx. assert (x = y) by congruence. subst y. split.
    - apply I3. destruct x. eapply nth_error_In; eauto.
    - intros w e Hw Hn. apply (My (w, e)). apply I4; auto.
  Qed.
  Lemma ps_all_out : forall cs s out, ps_use cs s out -> ps_empty s = true ->
    NoDup (map snd out) /\ forall e, In e (map snd out) <-> exists w, emplaced cs w e.
  Proof.
    intros cs s out H He. destruct (ps_inv cs s out H) as (I1 & I2 & I3 & I3' & I4 & _). split; auto.
    intros e. split.
    - intros Hi. apply in_map_iff in Hi. destruct Hi as ([w e'] & <- & Hi). exists w. cbn. auto.
    - intros [w Hw]. destruct (in_dec Nat.eq_dec e (map snd out)) as [|Hn]; auto. exfalso.
      specialize (I4 w e Hw Hn). unfold ps_empty in He. destruct (pq s); [destruct I4|discriminate].
  Qed.
End PrioritySet.

(** * fixed_point_workset *)
Section Workset.
  Variables (S : Type) (enf : bool) (sw : bool -> S -> nat -> S * list nat * bool).
  (** The log is in reverse order of time: [l1] happened after the insertion. *)
  Definition covered (log : list wev) (waiting : list nat) : Prop :=
    forall l1 e l2, log = l1 ++ EIns e :: l2 -> In (EOut e) l1 \/ In e waiting.
  (** Only inserted elements are handed out. *)
  Definition sound_log (log : list wev) : Prop :=
    forall l1 e l2, log = l1 ++ EOut e :: l2 -> In (EIns e) l2.

  Lemma sort_unique_In : forall l x, In x (sort_unique l) <-> In x l.
  Proof. induction l as [|a l IH]; intros x; cbn; [tauto|]. rewrite vs_emplace_In, IH. intuition. Qed.

  Lemma covered_more : forall log w1 w2, covered log w1 -> incl w1 w2 -> covered log w2.
  Proof. intros log w1 w2 H Hi l1 e l2 E. destruct (H l1 e l2 E); auto. Qed.
  Lemma covered_out : forall log e w, covered log (e :: w) -> covered (EOut e :: log) w.
  Proof.
    intros log e w H [|a l1] e' l2 E; cbn in E; [discriminate|]. injection E as <- E.
    destruct (H l1 e' l2 E) as [H1|[->|H1]]; auto; left; cbn; auto.
  Qed.
  Lemma covered_ins : forall log e w, covered log w -> covered (EIns e :: log) (e :: w).
  Proof.
    intros log e w H [|a l1] e' l2 E; cbn in E.
    - injection E as <- <-. right. left. auto.
    - injection E as <- E. destruct (H l1 e' l2 E); [left; right; auto|right; right; auto].
  Qed.
  Lemma covered_ins_all : forall ins log w, covered log w -> covered (rev (map EIns ins) ++ log) (w ++ ins).
  Proof.
    induction ins as [|e ins IH]; intros log w H; cbn; [rewrite app_nil_r; auto|].
    rewrite <- app_assoc. cbn. eapply covered_more; [apply IH, covered_ins, H|].
    intros x Hx. rewrite in_app_iff in *. cbn in *. tauto.
  Qed.
  Lemma sound_ins_all : forall ins log, sound_log log -> sound_log (rev (map EIns ins) ++ log).
  Proof.
    intros ins log H. assert (G : forall l, (forall e, ~ In (EOut e) l) -> sound_log (l ++ log)).
    { induction l as [|a l IH]; intros Hl; cbn; auto. intros [|b l1] e l2 E; cbn in E.
      - injection E as -> E. exfalso. apply (Hl e). left. auto.
      - injection E as <- E. apply (IH) with l1; auto. intros e' He'. apply (Hl e'). right; auto. }
    apply G. intros e He. apply in_rev in He. apply in_map_iff in He. destruct He as (? & ? & ?). discriminate.
  Qed.

  Definition ws_inv (w : wset S) : Prop :=
    covered (ws_log w) (ws_work w ++ ws_next w) /\ sound_log (ws_log w) /\
    (forall e, In e (ws_work w ++ ws_next w) -> In (EIns e) (ws_log w)).

  Lemma ws_take_inv : forall b w w', ws_take sw b w = Some w' -> ws_inv w -> ws_inv w'.
  Proof.
    intros b w w' H (I1 & I2 & I3). unfold ws_take in H.
    destruct (rev (ws_work w)) as [|e rest] eqn:E; [discriminate|].
    assert (Ew : ws_work w = rev rest ++ [e]) by (rewrite <- (rev_involutive (ws_work w)), E; auto).
    destruct (sw b (ws_s w) e) as [[s' ins] ok]. injection H as <-. unfold ws_inv. cbn [ws_log ws_work ws_next].
    rewrite Ew in *.
    assert (Ie : In (EIns e) (ws_log w)) by (apply I3; rewrite !in_app_iff; cbn; auto).
    split; [|split].
    - rewrite app_assoc. apply covered_ins_all. apply covered_out. eapply covered_more; [apply I1|].
      intros x Hx. rewrite !in_app_iff in Hx. cbn in *. rewrite in_app_iff. tauto.
    - apply sound_ins_all. intros [|a l1] e' l2 E'; cbn in E'.
      + injection E' as <- <-. auto.
      + injection E' as <- E'. eapply I2; eauto.
    - intros x Hx. rewrite !in_app_iff in Hx. apply in_or_app.
      destruct Hx as [Hx|[Hx|Hx]].
      + right. right. apply I3. rewrite !in_app_iff. auto.
      + right. right. apply I3. rewrite !in_app_iff. auto.
      + left. rewrite <- in_rev. apply in_map. auto.
  Qed.
  Lemma ws_step_inv : forall b w w', ws_step enf sw b w = Some w' -> ws_inv w -> ws_inv w'.
  Proof.
    intros b w w' H I. unfold ws_step in H. destruct (ws_work w) as [|a wk] eqn:Ew.
    - destruct (ws_next w) as [|c nx] eqn:En.
      + injection H as <-. destruct I as (I1 & I2 & I3). rewrite Ew, En in *. unfold ws_inv. cbn in *. auto.
      + rewrite <- En in *. eapply ws_take_inv; [apply H|]. destruct I as (I1 & I2 & I3). rewrite Ew in *. cbn in *.
        unfold ws_inv. cbn. rewrite app_nil_r.
        assert (Hi : forall x, In x (if enf then sort_unique (ws_next w) else ws_next w) <-> In x (ws_next w)).
        { intros x. destruct enf; [apply sort_unique_In|tauto]. }
        split; [|split; auto].
        * eapply covered_more; [apply I1|]. intros x Hx. apply Hi. auto.
        * intros x Hx. apply I3. apply Hi. auto.
    - eapply ws_take_inv; eauto.
  Qed.
  Lemma ws_loop_inv : forall b fuel w w', ws_loop enf sw b fuel w = Some (Some w') -> ws_inv w -> ws_inv w' /\ ws_stop w' = true.
  Proof.
    intros b. induction fuel as [|fuel IH]; intros w w' H I; cbn in H; destruct (ws_stop w) eqn:E; try (injection H as <-; auto).
    - discriminate.
    - destruct (ws_step enf sw b w) as [w1|] eqn:E1; [|discriminate]. cbn in H. eapply IH; eauto. eapply ws_step_inv; eauto.
  Qed.
  Lemma ws_init_inv : forall limit s ins, ws_inv (ws_init limit s ins).
  Proof.
    intros. unfold ws_inv, ws_init. cbn. split; [|split].
    - rewrite <- (app_nil_r (rev (map EIns ins))). apply (covered_ins_all ins [] []). intros [|] ? ? ?; discriminate.
    - rewrite <- (app_nil_r (rev (map EIns ins))). apply sound_ins_all. intros [|] ? ? ?; discriminate.
    - intros e He. rewrite <- in_rev. apply in_map. auto.
  Qed.
  Lemma ws_run_inv : forall fuel limit s ins w, ws_run enf sw fuel (ws_init limit s ins) = Some (Some w) -> ws_inv w.
  Proof.
    intros fuel limit s ins w H. unfold ws_run in H.
    destruct (ws_loop enf sw false fuel (ws_init limit s ins)) as [[w1|]|] eqn:E1; cbn in H; try discriminate.
    apply ws_loop_inv in E1; [|apply ws_init_inv]. destruct E1 as [I1 _]. unfold ws_finalize in H.
    eapply ws_loop_inv in H; [tauto|]. destruct I1 as (A & B & C). unfold ws_inv. cbn. auto.
  Qed.

  (** No step goes wrong: the work list is never read when it is empty. *)
  Lemma ws_step_some : forall b w, exists w', ws_step enf sw b w = Some w'.
  Proof.
    intros b w. unfold ws_step, ws_take.
    assert (G : forall (a : nat) l, exists e r, rev (a :: l) = e :: r).
    { intros a l. destruct (rev (a :: l)) as [|e r] eqn:E; [|eauto].
      apply (f_equal (@length nat)) in E. rewrite rev_length in E. discriminate. }
    destruct (ws_work w) as [|a wk] eqn:Ew.
    - destruct (ws_next w) as [|c nx] eqn:En; [eauto|]. cbn [ws_work ws_s].
      destruct enf.
      + assert (Hin : In c (sort_unique (c :: nx))) by (apply sort_unique_In; left; auto).
        destruct (sort_unique (c :: nx)) as [|d l] eqn:Es; [destruct Hin|].
        destruct (G d l) as (e & r & Er). rewrite Er. destruct (sw b (ws_s w) e) as [[s' ins] ok]. eauto.
      + destruct (G c nx) as (e & r & Er). rewrite Er. destruct (sw b (ws_s w) e) as [[s' ins] ok]. eauto.
    - destruct (G a wk) as (e & r & Er). rewrite Er. destruct (sw b (ws_s w) e) as [[s' ins] ok]. eauto.
  Qed.

  (** If the loop ends before the limit and no step_with refused, nothing is left waiting. *)
  Definition never_refuses : Prop := forall b s e, snd (sw b s e) = true.
  Definition done_empty (w : wset S) : Prop := ws_done w = true -> ws_work w = [] /\ ws_next w = [].
  Lemma ws_step_done : never_refuses -> forall b w w', ws_step enf sw b w = Some w' -> ws_done w = false -> done_empty w'.
  Proof.
    intros NR b w w' H Hd. unfold ws_step in H. 
    assert (T : forall v v', ws_take sw b v = Some v' -> ws_done v = false -> done_empty v').
    { intros v v' Hv Hdv. unfold ws_take in Hv. destruct (rev (ws_work v)) as [|e r]; [discriminate|].
      specialize (NR b (ws_s v) e). destruct (sw b (ws_s v) e) as [[s' ins] ok]. cbn in NR. subst ok.
      injection Hv as <-. unfold done_empty. cbn. congruence. }
    destruct (ws_work w) as [|a wk].
    - destruct (ws_next w) as [|c nx]; [injection H as <-; unfold done_empty; cbn; auto|]. eapply T; eauto.
    - eapply T; eauto.
  Qed.
  Lemma ws_loop_done : never_refuses -> forall b fuel w w', ws_loop enf sw b fuel w = Some (Some w') -> done_empty w -> done_empty w'.
  Proof.
    intros NR b. induction fuel as [|fuel IH]; intros w w' H I; cbn in H; destruct (ws_stop w) eqn:E; try (injection H as <-; auto).
    - discriminate.
    - destruct (ws_step enf sw b w) as [w1|] eqn:E1; [|discriminate]. cbn in H. eapply IH; eauto. eapply ws_step_done; eauto.
      unfold ws_stop in E. apply orb_false_iff in E. tauto.
  Qed.
  Lemma ws_run_done : never_refuses -> forall fuel limit s ins w, ws_run enf sw fuel (ws_init limit s ins) = Some (Some w) ->
    done_empty w.
  Proof.
    intros NR fuel limit s ins w H. unfold ws_run in H.
    destruct (ws_loop enf sw false fuel (ws_init limit s ins)) as [[w1|]|] eqn:E1; cbn in H; try discriminate.
    apply ws_loop_done in E1; auto; [|unfold done_empty; cbn; discriminate]. unfold ws_finalize in H.
    eapply ws_loop_done in H; eauto.
  Qed.
End Workset.
