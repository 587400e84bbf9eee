(** Proofs about HeaderModel. *)
From Coq Require Import List Arith Lia Bool Permutation Sorted.
From Verif Require Import Base BaseFacts Spec SpecFacts PdaModel PdaProof NfaModel NfaProof RegexProof ConstructProof NfaQueryModel NfaQueryProof ContainersModel ContainersProof
  TrieModel RefineModel MappingProof RefineProof PairProof PropsNfaQuery HeaderModel.
Import ListNotations.

(** *** Specification *)
(** The label x can be read at position i of a path through the NFA. *)
Definition enters (N : nfa) (path : list nat) (i x : nat) : Prop :=
  exists q, nth_error path i = Some q /\
    match i with 0 => reads_to N (n_init N) x q | S j => exists p, nth_error path j = Some p /\ reads_to N [p] x q end.
(** A word along the path. *)
Definition follows (N : nfa) (path w : list nat) : Prop := length w = length path /\ forall i x, nth_error w i = Some x -> enters N path i x.
(** Paths only visit states that compile keeps: accepting ones and those with a label to read. *)
Definition path_ok (N : nfa) (path : list nat) : Prop :=
  forall q, In q path -> q < length (n_states N) /\ (sts_acc (n_states N) q \/ exists x q', sts_edges (n_states N) q (Some x) q').
(** A header stands for the stacks (top first) that have its concrete part on top of the lowest h_wild labels of a word along
    the initial path. *)
Definition represents (R : recon) (h : header) (w s : list nat) : Prop :=
  follows (rc_infa R) (rc_ipath R) w /\ s = rev (h_conc h) ++ skipn (length (rc_ipath R) - h_wild h) w.
Definition recon_ok (R : recon) : Prop :=
  (forall i j, rc_addr R i = rc_addr R j -> i = j) /\ nfa_wf (rc_infa R) /\ nfa_wf (rc_fnfa R) /\ path_ok (rc_infa R) (rc_ipath R) /\ path_ok (rc_fnfa R) (rc_fpath R) /\
  RI (rc_map R) /\ length (rc_iabs R) = length (rc_ipath R) /\ length (rc_fabs R) = length (rc_fpath R) /\
  (forall i a, nth_error (rc_iabs R) i = Some a -> exists x, rm_exists (rc_map R) x = Some a /\ enters (rc_infa R) (rc_ipath R) i x) /\
  (forall i a, nth_error (rc_fabs R) i = Some a -> exists x, rm_exists (rc_map R) x = Some a /\ enters (rc_fnfa R) (rc_fpath R) i x).

Lemma check_spec : forall addr N path x i, (forall i j, addr i = addr j -> i = j) -> nfa_wf N -> path_ok N path -> i < length path ->
  exists b, check_nfa_path addr N path x i = Some b /\ (b = true <-> enters N path i x).
Proof.
  intros addr N path x i Ha W P L. destruct (nth_error_ex _ _ _ L) as [q Hq]. destruct (P q (nth_error_In _ _ Hq)) as [Lq Kq].
  assert (G: forall sts, path_from N path i = Some sts -> (forall s, In s sts -> s < length (n_states N)) -> exists b, check_nfa_path addr N path x i = Some b /\ (b = true <-> reads_to N sts x q)).
  { intros sts Es Hs. destruct (C45_has_as_successor addr N sts x q Ha W Hs) as (b & E & B). exists b. unfold check_nfa_path. rewrite Hq. cbn [obind]. rewrite Es. cbn [obind].
    split; auto. rewrite B. tauto. }
  unfold enters. destruct i as [|j].
  - destruct (G (n_init N) eq_refl) as (b & E & B); [intros s Hs; apply W; auto|]. exists b. split; auto. rewrite B. split; [eauto|]. intros (q0 & H1 & H2). replace q with q0 by congruence. auto.
  - destruct (nth_error_ex _ path j) as [p Hp]; [lia|]. destruct (G [p]) as (b & E & B).
    + cbn. rewrite Hp. auto.
    + intros s [<-|[]]. apply P. eapply nth_error_In; eauto.
    + exists b. split; auto. rewrite B. split; [eauto|]. intros (q0 & H1 & p0 & H2 & H3). replace q with q0 by congruence. replace p with p0 by congruence. auto.
Qed.

(** intersect_edge_labels misses labels, but not all of them. *)
Lemma set_union_nil : forall a b, set_union a b = [] -> a = [] /\ b = [].
Proof. intros a b H. split; [destruct a as [|x a]|destruct b as [|x b]]; auto; exfalso.
  - assert (K: In x (set_union (x :: a) b)) by (apply set_union_In; left; left; auto). rewrite H in K. destruct K.
  - assert (K: In x (set_union a (x :: b))) by (apply set_union_In; right; left; auto). rewrite H in K. destruct K.
Qed.
Lemma iel_nonempty : forall addr N q labels es acc t r, iel_loop addr N q labels es acc t = Some r -> labels <> [] ->
  (acc <> [] \/ exists e x, In e es /\ leads_to_by_epsilon addr N (ne_dst e) q = Some true /\ In x (if ne_neg e then set_diff labels (ne_sym e) else set_inter labels (ne_sym e))) -> r <> [].
Proof.
  intros addr N q labels. induction es as [|e es IH]; intros acc t r H Hl Hx; cbn in H.
  - injection H as <-. destruct Hx as [Hx|(e & x & [] & _)]; auto.
  - destruct (leads_to_by_epsilon addr N (ne_dst e) q) as [b|] eqn:El; [|discriminate]. cbn [obind] in H. destruct b; cbn [negb] in H.
    + destruct (ne_neg e && _) eqn:En; [injection H as <-; auto|].
      set (t' := t ++ (if ne_neg e then set_diff labels (ne_sym e) else set_inter labels (ne_sym e))) in *.
      destruct (Nat.eqb (length (set_union acc t')) (length labels)) eqn:Eq.
      * injection H as <-. apply Nat.eqb_eq in Eq. intros Z. rewrite Z in Eq. destruct labels; [auto|discriminate].
      * apply IH in H; auto. destruct Hx as [Hx|(e' & x & [->|Hin] & H1 & H2)].
        -- left. intros Z. apply set_union_nil in Z. tauto.
        -- left. intros Z. apply set_union_nil in Z. destruct Z as [_ Z]. unfold t' in Z. apply app_eq_nil in Z. destruct Z as [_ Z]. rewrite Z in H2. destruct H2.
        -- right. eauto.
    + apply IH in H; auto. destruct Hx as [Hx|(e' & x & [->|Hin] & H1 & H2)]; auto; [congruence|]. right. eauto.
Qed.
Lemma intersect_spec : forall addr N path labels i, (forall i j, addr i = addr j -> i = j) -> nfa_wf N -> path_ok N path -> i < length path -> ssorted labels ->
  exists r, intersect_path_labels addr N path labels i = Some r /\ (forall x, In x r -> In x labels /\ enters N path i x) /\
    ((exists x, In x labels /\ enters N path i x) -> r <> []).
Proof.
  intros addr N path labels i Ha W P L SL. destruct (nth_error_ex _ _ _ L) as [q Hq].
  assert (SL': forall i j a b, i < j -> nth_error labels i = Some a -> nth_error labels j = Some b -> a < b).
  { clear -SL. induction SL as [|y l S IH F]; intros i j a b Hij Hi Hj; [destruct i; discriminate|]. rewrite Forall_forall in F. destruct j as [|j]; [lia|]. cbn in Hj. destruct i as [|i]; cbn in Hi.
    - injection Hi as <-. apply F. eapply nth_error_In; eauto.
    - apply (IH i j); auto. lia. }
  assert (G: exists sts, path_from N path i = Some sts /\ (forall s, In s sts -> s < length (n_states N)) /\ forall x, enters N path i x <-> reads_to N sts x q).
  { unfold enters. destruct i as [|j].
    - exists (n_init N). split; [auto|]. split; [intros s Hs; apply W; auto|]. intros x. split; [intros (q' & H1 & H2); congruence|eauto].
    - destruct (nth_error_ex _ path j) as [p Hp]; [lia|]. exists [p]. cbn [path_from]. rewrite Hp. split; [auto|]. split; [intros s [<-|[]]; apply P; eapply nth_error_In; eauto|].
      intros x. split; [intros (q0 & H1 & p0 & H2 & H3); replace q with q0 by congruence; replace p with p0 by congruence; auto|eauto]. }
  destruct G as (sts & Es & Hs & G).
  destruct (C45_intersect_edge_labels_partial addr N sts q labels Ha W Hs SL') as (r & es & E & Ee & R1 & _). exists r.
  unfold intersect_path_labels. rewrite Hq. cbn [obind]. rewrite Es. cbn [obind]. split; [auto|]. split; [intros x Hx; rewrite G; apply R1; auto|].
  intros (x & Hx & Ex). apply G in Ex. destruct Ex as (s & d & K1 & (st & e & K2 & K3 & <- & K4) & K5).
  unfold NfaQueryModel.intersect_edge_labels in E. destruct (is_sorted Nat.ltb labels); [|discriminate]. rewrite Ee in E. cbn [obind] in E.
  destruct (edges_from_spec addr Ha N sts Hs) as (es' & Ee' & He). rewrite Ee in Ee'. injection Ee' as <-.
  assert (Hin: In e es) by (apply He; eauto). destruct (edges_from_wf N W sts es e Ee Hin) as [D Se].
  eapply iel_nonempty; [exact E|intros ->; destruct Hx|]. right. exists e, x. split; [auto|]. split.
  - destruct (leads_to_spec addr Ha N W (ne_dst e) q D) as (b & Eb & Hb). rewrite Eb. f_equal. apply Hb. auto.
  - unfold sym_ok in K4. destruct (ne_neg e); [apply set_diff_In|apply set_inter_In]; auto.
Qed.

(** *** Headers *)
Lemma rev_removelast : forall (l : list nat), rev (removelast l) = tl (rev l).
Proof. intros l. destruct l as [|x l] using rev_ind; auto. rewrite removelast_last, rev_app_distr. auto. Qed.
Lemma is_nil_rev : forall (l : list nat), is_nil l = is_nil (rev l).
Proof. intros l. destruct l as [|x l] using rev_ind; auto. rewrite rev_app_distr. destruct l; auto. Qed.
Lemma skipn_skipn' : forall A (l : list A) a b, skipn a (skipn b l) = skipn (b + a) l.
Proof. intros A l a b. revert l. induction b as [|b IH]; intros l; cbn; auto. destruct l; auto. apply skipn_nil. Qed.
(** Replacing labels of a word. *)
Definition put (w : list nat) (i : nat) (l : list nat) : list nat := firstn i w ++ l ++ skipn (i + length l) w.
Lemma put_length : forall w i l, i + length l <= length w -> length (put w i l) = length w.
Proof. intros. unfold put. rewrite !app_length, firstn_length, skipn_length. lia. Qed.
Lemma put_nth : forall w i l j, i + length l <= length w -> nth_error (put w i l) j = if (i <=? j) && (j <? i + length l) then nth_error l (j - i) else nth_error w j.
Proof.
  intros w i l j L. unfold put. destruct (Nat.leb_spec i j) as [H|H]; cbn.
  - rewrite nth_error_app2; rewrite firstn_length_le by lia; [|lia]. destruct (Nat.ltb_spec j (i + length l)).
    + rewrite nth_error_app1 by lia. auto.
    + rewrite nth_error_app2 by lia. rewrite <- (firstn_skipn (i + length l) w) at 2. rewrite (nth_error_app2 (firstn _ _)); rewrite firstn_length_le by lia; [|lia]. f_equal. lia.
  - rewrite nth_error_app1 by (rewrite firstn_length_le; lia). rewrite <- (firstn_skipn i w) at 2. rewrite nth_error_app1; auto. rewrite firstn_length_le; lia.
Qed.
Lemma put_follows : forall N path w i l, follows N path w -> i + length l <= length path -> (forall j x, nth_error l j = Some x -> enters N path (i + j) x) -> follows N path (put w i l).
Proof.
  intros N path w i l [L F] Li H. split; [rewrite put_length; lia|]. intros j x. rewrite put_nth by lia. destruct (Nat.leb_spec i j); cbn [andb]; auto.
  destruct (Nat.ltb_spec j (i + length l)); auto. intros Hx. replace j with (i + (j - i)) by lia. apply H. auto.
Qed.
Lemma put_skipn : forall w i l, i + length l <= length w -> skipn i (put w i l) = l ++ skipn (i + length l) w.
Proof. intros w i l L. unfold put. rewrite skipn_app, firstn_length_le by lia. rewrite Nat.sub_diag, skipn_all2 by (rewrite firstn_length_le; lia). auto. Qed.

Section Recon.
  Variable R : recon.
  Hypothesis OK : recon_ok R.
  Let n := length (rc_ipath R).
  Lemma icheck : forall x i, i < n -> exists b, check_nfa_path (rc_addr R) (rc_infa R) (rc_ipath R) x i = Some b /\ (b = true <-> enters (rc_infa R) (rc_ipath R) i x).
  Proof. intros. destruct OK as (H1 & H2 & H3 & H4 & H5 & _). apply check_spec; auto. Qed.
  Lemma fcheck : forall x i, i < length (rc_fpath R) -> exists b, check_nfa_path (rc_addr R) (rc_fnfa R) (rc_fpath R) x i = Some b /\ (b = true <-> enters (rc_fnfa R) (rc_fpath R) i x).
  Proof. intros. destruct OK as (H1 & H2 & H3 & H4 & H5 & _). apply check_spec; auto. Qed.
  Lemma first_ok_spec : forall f l, (forall x, In x l -> f x <> None) -> (exists x, In x l /\ f x = Some true) -> exists x, first_ok f l = Some x /\ In x l /\ f x = Some true.
  Proof.
    intros f l. induction l as [|y l IH]; intros D (x & Hx & Fx); [destruct Hx|]. cbn. destruct (f y) as [[]|] eqn:Ey.
    - exists y. cbn. auto.
    - cbn [obind]. destruct IH as (z & H1 & H2 & H3); [intros; apply D; right; auto| |eauto]. exists x. split; auto. destruct Hx; [congruence|auto].
    - exfalso. apply (D y); cbn; auto.
  Qed.
  (** The labels that may stand at a wildcard. *)
  Definition suits (i x : nat) : Prop := enters (rc_infa R) (rc_ipath R) i x /\ exists a, nth_error (rc_iabs R) i = Some a /\ rm_exists (rc_map R) x = Some a.
  Lemma specialize_spec : forall h, h_conc h = [] -> 0 < h_wild h <= n -> exists x, find_wildcard_specialization R h = Some x /\ suits (n - h_wild h) x.
  Proof.
    intros h Hc Hw. unfold find_wildcard_specialization, h_empty, h_top_is_concrete, wild_pos. rewrite Hc. destruct (Nat.eqb_spec (h_wild h) 0); [lia|]. cbn.
    fold n. destruct (Nat.leb_spec (h_wild h) n); [|lia]. cbn [obind].
    destruct OK as (_ & _ & _ & _ & _ & HR & Li & _ & Hi & _). destruct (nth_error_ex _ (rc_iabs R) (n - h_wild h)) as [a Ha]; [unfold n in *; lia|]. rewrite Ha. cbn [obind].
    destruct (rm_concrete_spec (rc_map R) a HR) as (ls & El & _ & Hls). rewrite El. cbn [obind].
    destruct (first_ok_spec (fun l => check_nfa_path (rc_addr R) (rc_infa R) (rc_ipath R) l (n - h_wild h)) ls) as (x & Ex & Hx & Fx).
    - intros x _. destruct (icheck x (n - h_wild h)) as (b & Eb & _); [lia|]. rewrite Eb. discriminate.
    - destruct (Hi _ _ Ha) as (x & Hx & Hen). exists x. split; [apply Hls; auto|]. destruct (icheck x (n - h_wild h)) as (b & Eb & B); [lia|]. rewrite Eb. f_equal. tauto.
    - exists x. split; auto. destruct (icheck x (n - h_wild h)) as (b & Eb & B); [lia|]. rewrite Eb in Fx. injection Fx as ->. split; [tauto|].
      exists a. split; auto. apply Hls. auto.
  Qed.
  Lemma pop_spec : forall h, 0 < h_size h -> exists h', h_pop h = Some h' /\
    ((h_conc h <> [] /\ h_wild h' = h_wild h /\ rev (h_conc h') = tl (rev (h_conc h))) \/ (h_conc h = [] /\ h_conc h' = [] /\ h_wild h = S (h_wild h'))).
  Proof.
    intros [k c] H. unfold h_pop, h_size in *. cbn in *. destruct c as [|x c]; cbn [is_nil].
    - destruct k; [cbn in H; lia|]. eexists. split; [eauto|]. right. auto.
    - eexists. split; [eauto|]. left. cbn [h_wild h_conc]. split; [discriminate|]. split; auto. apply (rev_removelast (x :: c)).
  Qed.
  Lemma h_empty_size : forall h, h_empty h = Nat.eqb (h_size h) 0.
  Proof. intros [[|k] [|x c]]; auto. Qed.
  (** The loop: it pops the concrete labels first; each wildcard popped gives a label that suits its position. *)
  Lemma pop_loop_spec : forall p h pre, p <= h_size h -> h_wild h <= n ->
    exists h' spec, pop_loop R p h pre = Some (h', pre ++ spec) /\ length spec = p - length (h_conc h) /\ h_wild h' = h_wild h - length spec /\
      rev (h_conc h') = skipn p (rev (h_conc h)) /\ (forall j x, nth_error spec j = Some x -> suits (n - h_wild h + j) x).
  Proof.
    induction p as [|p IH]; intros h pre Hp Hw.
    - exists h, []. cbn. rewrite app_nil_r. repeat split; auto; try lia; destruct j; discriminate.
    - cbn [pop_loop]. rewrite h_empty_size. destruct (Nat.eqb_spec (h_size h) 0) as [Z|Z]; [lia|]. destruct (pop_spec h) as (h1 & E1 & [(N & W1 & C1)|(N & C1 & W1)]); [lia| |].
      + unfold h_top_is_concrete. destruct (is_nil (h_conc h)) eqn:En; [apply is_nil_iff in En; tauto|]. cbn [negb obind]. rewrite E1. cbn [obind].
        assert (L: length (h_conc h1) = length (h_conc h) - 1). { rewrite <- (rev_length (h_conc h1)), C1, <- (rev_length (h_conc h)). destruct (rev (h_conc h)); cbn; lia. }
        assert (0 < length (h_conc h)) by (destruct (h_conc h); [congruence|cbn; lia]).
        destruct (IH h1 pre) as (h' & spec & E & L' & W' & C' & S'); [unfold h_size in *; lia|lia|]. exists h', spec. split; [auto|]. split; [lia|]. split; [lia|]. split; [|rewrite <- W1; auto].
        rewrite C', C1. destruct (rev (h_conc h)); cbn; auto. apply skipn_nil.
      + destruct (specialize_spec h N) as (x & Ex & Sx); [unfold h_size in *; rewrite N in *; cbn in *; lia|].
        replace (h_top_is_concrete h) with false by (unfold h_top_is_concrete; rewrite N; auto). rewrite Ex. cbn [obind]. rewrite E1. cbn [obind].
        destruct (IH h1 (pre ++ [x])) as (h' & spec & E & L' & W' & C' & S'); [unfold h_size in *; rewrite N, C1 in *; cbn in *; lia|lia|].
        exists h', (x :: spec). rewrite E, <- app_assoc. split; [auto|]. rewrite N, C1 in *. cbn [length rev app] in *. split; [lia|]. split; [lia|]. split; [rewrite C', skipn_nil; auto|].
        intros [|j] y Hy; cbn in Hy.
        * injection Hy as <-. rewrite Nat.add_0_r. auto.
        * apply S' in Hy. replace (n - h_wild h + S j) with (n - h_wild h1 + j); auto. lia.
  Qed.
  Lemma wild_pre_spec : forall h post p, p <= h_size h -> h_wild h <= n ->
    exists h' spec, update_wildcard_pre R h post p = Some (h', spec) /\ length spec = p - length (h_conc h) /\ h_wild h' = h_wild h - length spec /\
      rev (h_conc h') = rev post ++ skipn p (rev (h_conc h)) /\ (forall j x, nth_error spec j = Some x -> suits (n - h_wild h + j) x).
  Proof.
    intros h post p Hp Hw. unfold update_wildcard_pre. destruct (Nat.leb_spec p (h_size h)); [|lia].
    destruct (pop_loop_spec p h [] Hp Hw) as (h' & spec & E & L & W & C & S). rewrite E. cbn [obind fst snd app]. exists (h_append h' post), spec.
    unfold h_append. cbn [h_wild h_conc]. rewrite rev_app_distr, C. auto.
  Qed.
  Lemma word_ex : exists w, follows (rc_infa R) (rc_ipath R) w.
  Proof.
    assert (G: forall m, m <= n -> exists w, length w = m /\ forall i x, nth_error w i = Some x -> enters (rc_infa R) (rc_ipath R) i x).
    { induction m as [|m IH]; intros H; [exists []; split; auto; intros [|i]; discriminate|]. destruct IH as (w & L & F); [lia|].
      destruct OK as (_ & _ & _ & _ & _ & _ & Li & _ & Hi & _). destruct (nth_error_ex _ (rc_iabs R) m) as [a Ha]; [unfold n in *; lia|].
      destruct (Hi _ _ Ha) as (x & _ & Hx). exists (w ++ [x]). split; [rewrite app_length; cbn; lia|]. intros i y Hy. destruct (Nat.lt_ge_cases i m).
      - rewrite nth_error_app1 in Hy by lia. auto.
      - assert (i = m) by (apply nth_error_lt in Hy; rewrite app_length in Hy; cbn in Hy; lia). subst i. rewrite nth_error_app2, L, Nat.sub_diag in Hy by lia. injection Hy as <-. auto. }
    destruct (G n) as (w & L & F); [lia|]. exists w. split; auto.
  Qed.
  (** What the pops do to the represented stacks. *)
  Lemma wild_pre_rep : forall h post p h' spec, p <= h_size h -> h_wild h <= n -> update_wildcard_pre R h post p = Some (h', spec) ->
    h_wild h' <= h_wild h /\ length spec <= p /\ h_size h' + p = h_size h + length post /\ (forall j x, nth_error spec j = Some x -> suits (n - h_wild h + j) x) /\
    (forall w s, represents R h w s -> represents R h' w (rev post ++ skipn p s)) /\
    (forall w' s', represents R h' w' s' -> let w := put w' (n - h_wild h) spec in
       exists s c, represents R h w s /\ s' = rev post ++ skipn p s /\ firstn p s = c ++ spec /\ skipn (n - h_wild h') w = skipn (n - h_wild h') w').
  Proof.
    intros h post p h' spec Hp Hw E. destruct (wild_pre_spec h post p Hp Hw) as (h1 & sp & E1 & L & W & C & S). rewrite E in E1. injection E1 as <- <-.
    fold n in S. assert (Ls: length spec <= h_wild h) by (unfold h_size in *; lia).
    assert (A: n - h_wild h' = n - h_wild h + length spec) by (rewrite W; lia).
    assert (B: forall t, skipn p (rev (h_conc h) ++ t) = skipn p (rev (h_conc h)) ++ skipn (length spec) t).
    { intros t. rewrite skipn_app, rev_length, L. auto. }
    split; [lia|]. split; [lia|]. split.
    { pose proof (f_equal (@length nat) C) as LC. rewrite app_length, skipn_length, !rev_length in LC. unfold h_size in *. lia. }
    split; [auto|]. split.
    - intros w s [F ->]. split; auto. fold n. rewrite B, C, skipn_skipn', A, <- app_assoc. auto.
    - intros w' s' [F ->]. fold n. cbv zeta. assert (Lw: length w' = n) by apply F.
      assert (P: skipn (n - h_wild h) (put w' (n - h_wild h) spec) = spec ++ skipn (n - h_wild h + length spec) w') by (apply put_skipn; lia).
      exists (rev (h_conc h) ++ skipn (n - h_wild h) (put w' (n - h_wild h) spec)), (firstn p (rev (h_conc h))). split; [split; auto|].
      + apply put_follows; auto; [fold n; lia|]. intros j x Hj. apply S; auto.
      + rewrite P. split; [|split].
        * rewrite B, C, A, <- app_assoc. do 2 f_equal. rewrite skipn_app, skipn_all, Nat.sub_diag. auto.
        * rewrite firstn_app, rev_length. f_equal. rewrite <- L. rewrite firstn_app, firstn_all, Nat.sub_diag. cbn. apply app_nil_r.
        * rewrite A, <- skipn_skipn', P, skipn_app, skipn_all, Nat.sub_diag. auto.
  Qed.
  Theorem update_spec : forall h pre post p, 1 + p <= h_size h -> h_wild h <= n ->
    exists r, update_header R h pre post p = Some r /\
      match r with
      | None => forall w s, ~ represents R h w (pre :: s)
      | Some (h', spec) => h_wild h' <= h_wild h /\ h_size h' + 1 + p = h_size h + length post /\
          (forall w s, represents R h w (pre :: s) -> represents R h' w (rev post ++ skipn p s)) /\
          (forall w' s', represents R h' w' s' -> exists w s c, represents R h w (pre :: s) /\ s' = rev post ++ skipn p s /\
             firstn p s = c ++ spec /\ skipn (n - h_wild h') w = skipn (n - h_wild h') w') /\
          (forall j x, nth_error spec j = Some x -> exists i, suits i x) /\
          exists w s, represents R h w (pre :: s)
      end.
  Proof.
    intros h pre post p Hp Hw. unfold update_header. destruct (Nat.leb_spec (1 + p) (h_size h)); [|lia].
    destruct (pop_spec h) as (h1 & E1 & Hpop); [lia|].
    (* finishing: h1 and its relation to h *)
    assert (Fin: h_wild h1 <= h_wild h -> h_size h1 + 1 = h_size h ->
      (forall w s, represents R h w (pre :: s) -> represents R h1 w s) ->
      (forall w s, represents R h1 w s -> exists w0, represents R h w0 (pre :: s) /\ forall j, n - h_wild h1 <= j -> skipn j w0 = skipn j w) ->
      exists r, (h' <- h_pop h;; r <- update_wildcard_pre R h' post p;; Some (Some r)) = Some r /\
      match r with
      | None => forall w s, ~ represents R h w (pre :: s)
      | Some (h', spec) => h_wild h' <= h_wild h /\ h_size h' + 1 + p = h_size h + length post /\
          (forall w s, represents R h w (pre :: s) -> represents R h' w (rev post ++ skipn p s)) /\
          (forall w' s', represents R h' w' s' -> exists w s c, represents R h w (pre :: s) /\ s' = rev post ++ skipn p s /\
             firstn p s = c ++ spec /\ skipn (n - h_wild h') w = skipn (n - h_wild h') w') /\
          (forall j x, nth_error spec j = Some x -> exists i, suits i x) /\
          exists w s, represents R h w (pre :: s)
      end).
    { intros W1 S1 F B. rewrite E1. cbn [obind]. destruct (wild_pre_spec h1 post p) as (h2 & spec & E2 & _); [lia|fold n; lia|]. rewrite E2. cbn [obind].
      destruct (wild_pre_rep h1 post p h2 spec) as (W2 & L2 & S2 & Sp & F2 & B2); auto; [lia|lia|]. eexists. split; [eauto|]. cbv beta iota.
      split; [lia|]. split; [lia|]. split; [auto|].
      assert (G: forall w' s', represents R h2 w' s' -> exists w s c, represents R h w (pre :: s) /\ s' = rev post ++ skipn p s /\
             firstn p s = c ++ spec /\ skipn (n - h_wild h2) w = skipn (n - h_wild h2) w').
      { intros w' s' H'. destruct (B2 w' s' H') as (s & c & H1 & H2 & H3 & H4). destruct (B _ _ H1) as (w0 & H5 & H6). exists w0, s, c.
        split; [auto|]. split; [auto|]. split; [auto|]. rewrite H6 by lia. auto. }
      split; [exact G|]. split; [intros j x Hj; eauto|]. destruct word_ex as [w F0]. destruct (G w (rev (h_conc h2) ++ skipn (n - h_wild h2) w)) as (w0 & s & c & H1 & _); [split; auto|]. eauto. }
    destruct Hpop as [(N & W1 & C1)|(N & C1 & W1)].
    - replace (h_top_is_concrete h) with true by (unfold h_top_is_concrete; destruct (h_conc h); [congruence|auto]).
      unfold h_back. destruct (rev (h_conc h)) as [|y c] eqn:Er; [apply (f_equal (@rev nat)) in Er; rewrite rev_involutive in Er; cbn in Er; congruence|]. cbn [obind tl] in *.
      destruct (Nat.eqb_spec y pre) as [->|Ny].
      + apply Fin.
        * lia.
        * unfold h_size. rewrite W1, <- (rev_length (h_conc h1)), C1, <- (rev_length (h_conc h)), Er. cbn. lia.
        * intros w s [F E]. rewrite Er in E. cbn in E. injection E as ->. split; auto. rewrite C1, W1. auto.
        * intros w s [F ->]. exists w. split; auto. split; auto. rewrite Er, C1, W1. auto.
      + exists None. split; auto. intros w s [F E]. rewrite Er in E. injection E as E _. congruence.
    - replace (h_top_is_concrete h) with false by (unfold h_top_is_concrete; rewrite N; auto).
      unfold wild_pos. fold n. destruct (Nat.leb_spec (h_wild h) n); [|lia]. cbn [obind]. destruct (icheck pre (n - h_wild h)) as (b & Eb & Hb); [fold n; lia|]. rewrite Eb. cbn [obind].
      destruct b.
      + assert (Hen: enters (rc_infa R) (rc_ipath R) (n - h_wild h) pre) by tauto. apply Fin.
        * lia.
        * unfold h_size. rewrite N, C1, W1. cbn. lia.
        * intros w s [F E]. split; auto. fold n. fold n in E. rewrite N in E. rewrite C1. cbn [rev app] in *. replace (n - h_wild h1) with (n - h_wild h + 1) by lia. rewrite <- skipn_skipn', <- E. auto.
        * intros w s [F ->]. assert (Lw: length w = n) by apply F. exists (put w (n - h_wild h) [pre]). fold n. split; [split|].
          -- apply put_follows; auto; [cbn; fold n; lia|]. intros [|[|j]] x Hj; try discriminate. injection Hj as <-. rewrite Nat.add_0_r. auto.
          -- fold n. rewrite put_skipn by (cbn [length]; lia). rewrite N, C1. cbn [rev app length]. do 2 f_equal. lia.
          -- intros j Hj. transitivity (skipn (j - (n - h_wild h)) (skipn (n - h_wild h) (put w (n - h_wild h) [pre]))); [rewrite skipn_skipn'; f_equal; lia|].
             rewrite put_skipn by (cbn [length]; lia). replace (j - (n - h_wild h)) with (S (j - (n - h_wild h1))) by lia. cbn [app skipn length]. rewrite skipn_skipn'. f_equal. lia.
      + exists None. split; auto. intros w s [F E]. fold n in E. rewrite N in E. cbn [rev app] in E.
        assert (K: nth_error w (n - h_wild h) = Some pre). { rewrite <- (firstn_skipn (n - h_wild h) w). rewrite nth_error_app2; rewrite firstn_length_le by (destruct F; unfold n in *; lia); [|lia].
          rewrite Nat.sub_diag, <- E. auto. }
        apply F in K. apply Hb in K. discriminate.
  Qed.
  (** The word without wildcards of the initial header. *)
  Lemma initial_rep : forall w s, represents R (initial_header R) w s <-> follows (rc_infa R) (rc_ipath R) w /\ s = w.
  Proof. intros w s. unfold represents, initial_header. cbn. rewrite Nat.sub_diag. cbn. tauto. Qed.

  (** *** finalize_header *)
  Let nf := length (rc_fpath R).
  Definition typed (s : list nat) : Prop := forall i x, nth_error s i = Some x -> exists a, nth_error (rc_fabs R) i = Some a /\ rm_exists (rc_map R) x = Some a.
  Definition splits (rf : refinement) : Prop := exists a b i, rf_parts rf = [a; b] /\ a <> [] /\ b <> [] /\ (forall x, In x a -> ~ In x b) /\
    nth_error (rc_fabs R) i = Some (rf_id rf) /\ (forall x, In x a \/ In x b -> rm_exists (rc_map R) x = Some (rf_id rf)) /\
    (forall x, In x b -> enters (rc_fnfa R) (rc_fpath R) i x) /\ (forall x, In x a -> ~ enters (rc_fnfa R) (rc_fpath R) i x).
  Lemma two_spec : forall a b id, a <> [] -> b <> [] -> (forall x, In x a -> ~ In x b) -> ref_two a b id = Some (mk_ref [sort_nat a; sort_nat b] id).
  Proof.
    intros a b id Ha Hb D. unfold ref_two. destruct a as [|x a]; [congruence|]. destruct b as [|y b]; [congruence|]. cbn [is_nil orb].
    destruct (disj_spec (sort_nat (x :: a)) (sort_nat (y :: b))) as (r & E & Hr); try apply sort_nat_sorted. rewrite E. cbn [obind].
    replace r with true; auto. symmetry. apply Hr. intros z Hz Hz'. rewrite sort_nat_In in Hz, Hz'. apply (D z); auto.
  Qed.
  Lemma sort_nonempty : forall l, l <> [] -> sort_nat l <> [].
  Proof. intros [|x l] H K; [auto|]. assert (I: In x (sort_nat (x :: l))) by (apply sort_nat_In; cbn; auto). rewrite K in I. destruct I. Qed.
  Lemma splits_mk : forall a b id i, a <> [] -> b <> [] -> nth_error (rc_fabs R) i = Some id -> (forall x, In x a \/ In x b -> rm_exists (rc_map R) x = Some id) ->
    (forall x, In x b -> enters (rc_fnfa R) (rc_fpath R) i x) -> (forall x, In x a -> ~ enters (rc_fnfa R) (rc_fpath R) i x) ->
    exists rf, ref_two a b id = Some rf /\ splits rf /\ rf_parts rf = [sort_nat a; sort_nat b].
  Proof.
    intros a b id i Ha Hb Hi Hm H1 H2. eexists. split; [apply two_spec; auto; intros x Hx Hx'; apply (H2 x); auto|]. split; auto. exists (sort_nat a), (sort_nat b), i. cbn [rf_parts rf_id].
    split; [auto|]. split; [apply sort_nonempty; auto|]. split; [apply sort_nonempty; auto|]. setoid_rewrite sort_nat_In.
    split; [intros x Hx Hx'; apply (H2 x); auto|]. split; [auto|]. split; [auto|]. split; auto.
  Qed.
  Lemma final_loop_spec : forall l i, i + length l <= nf -> (forall j x, nth_error l j = Some x -> exists a, nth_error (rc_fabs R) (i + j) = Some a /\ rm_exists (rc_map R) x = Some a) ->
    exists r, final_loop R l i = Some r /\ match r with
      | inl _ => forall j x, nth_error l j = Some x -> enters (rc_fnfa R) (rc_fpath R) (i + j) x
      | inr rf => splits rf /\ exists j x, nth_error l j = Some x /\ ~ enters (rc_fnfa R) (rc_fpath R) (i + j) x
      end.
  Proof.
    induction l as [|x l IH]; intros i Hl Ht.
    - exists (inl tt). split; auto. intros [|j]; discriminate.
    - cbn [final_loop length] in *. destruct (fcheck x i) as (b & Eb & Hb); [fold nf; lia|]. rewrite Eb. cbn [obind]. destruct b.
      + destruct (IH (S i)) as (r & E & Hr); [lia| |].
        { intros j y Hj. destruct (Ht (S j) y Hj) as (a & H1 & H2). exists a. split; auto. replace (S i + j) with (i + S j) by lia. auto. }
        exists r. split; auto. destruct r as [u|rf].
        * intros [|j] y Hj; [injection Hj as <-; rewrite Nat.add_0_r; tauto|]. replace (i + S j) with (S i + j) by lia. auto.
        * destruct Hr as (H1 & j & y & H2 & H3). split; auto. exists (S j), y. split; auto. replace (i + S j) with (S i + j) by lia. auto.
      + destruct (Ht 0 x eq_refl) as (a & Ha & Hx). rewrite Nat.add_0_r in Ha. rewrite Ha. cbn [obind].
        destruct OK as (O1 & O2 & O3 & O4 & O5 & HR & _ & _ & _ & Hf). destruct (rm_concrete_spec (rc_map R) a HR) as (ls & El & Nl & Hls). rewrite El. cbn [obind].
        destruct (intersect_spec (rc_addr R) (rc_fnfa R) (rc_fpath R) (sort_nat ls) i) as (good & Eg & Hg & Ng); auto; [fold nf; lia|apply sort_nat_ssorted; auto|]. rewrite Eg. cbn [obind].
        destruct (splits_mk [x] good a i) as (rf & Er & Sp & _); auto; [discriminate| | | | |].
        * apply Ng. destruct (Hf _ _ Ha) as (y & Hy & Hen). exists y. split; auto. apply sort_nat_In, Hls. auto.
        * intros y [[<-|[]]|Hy]; auto. apply Hls, sort_nat_In, Hg. auto.
        * intros y Hy. apply Hg. auto.
        * intros y [<-|[]]. intros K. apply Hb in K. discriminate.
        * rewrite Er. cbn [obind]. eexists. split; [eauto|]. cbn. split; auto. exists 0, x. split; auto. rewrite Nat.add_0_r. intros K. apply Hb in K. discriminate.
  Qed.
  Lemma scan_spec : forall fi ff ls ini fin, (forall x, In x ls -> fi x <> None /\ ff x <> None) ->
    exists r, scan_labels fi ff ls ini fin = Some r /\ match r with
      | inl x => In x ls /\ fi x = Some true /\ ff x = Some true
      | inr (a, b) => (forall x, In x ls -> ~ (fi x = Some true /\ ff x = Some true)) /\ a = ini ++ filter (fun x => match fi x with Some b => b | None => false end) ls /\
                      b = fin ++ filter (fun x => match ff x with Some b => b | None => false end) ls
      end.
  Proof.
    intros fi ff. induction ls as [|x ls IH]; intros ini fin D.
    - eexists. split; [reflexivity|]. cbn. rewrite !app_nil_r. auto.
    - cbn [scan_labels]. destruct (D x (or_introl eq_refl)) as [D1 D2]. destruct (fi x) as [bi|] eqn:Ei; [|congruence]. destruct (ff x) as [bf|] eqn:Ef; [|congruence]. cbn [obind].
      destruct (bi && bf) eqn:Eb.
      + apply andb_true_iff in Eb. destruct Eb as [-> ->]. eexists. split; [reflexivity|]. cbn. auto.
      + destruct (IH (if bi then ini ++ [x] else ini) (if bf then fin ++ [x] else fin)) as (r & E & Hr); [intros; apply D; right; auto|]. exists r. split; auto. destruct r as [y|[a b]].
        * cbn. tauto.
        * destruct Hr as (H1 & -> & ->). split; [|cbn; rewrite Ei, Ef; destruct bi, bf; rewrite <- ?app_assoc; auto].
          intros y [<-|Hy]; auto. intros [K1 K2]. rewrite Ei in K1. rewrite Ef in K2. injection K1 as ->. injection K2 as ->. discriminate.
  Qed.
  Lemma wild_at : forall (l : list nat) k, 0 < k -> k <= length l -> wild_pos l k = Some (length l - k).
  Proof. intros l k H1 H2. unfold wild_pos. destruct (Nat.leb_spec k (length l)); auto; lia. Qed.
  (** A label that is fine at the wildcard k for both automata and the abstraction. *)
  Definition fine (k x : nat) : Prop := enters (rc_infa R) (rc_ipath R) (n - k) x /\ enters (rc_fnfa R) (rc_fpath R) (nf - k) x /\
    exists a, nth_error (rc_fabs R) (nf - k) = Some a /\ rm_exists (rc_map R) x = Some a.
  Lemma concreterize_spec : forall k acc, k <= n -> k <= nf -> (forall j, 0 < j <= k -> nth_error (rc_iabs R) (n - j) = nth_error (rc_fabs R) (nf - j)) ->
    exists r, concreterize R k acc = Some r /\ match r with
      | inl h => exists t, h = mk_header 0 (rev (acc ++ t)) /\ length t = k /\ forall j x, nth_error t j = Some x -> fine (k - j) x
      | inr rf => splits rf /\ NoDup (concat (rf_parts rf)) /\ exists j, 0 < j <= k /\ forall x, ~ fine j x
      end.
  Proof.
    induction k as [|k IH]; intros acc Hn Hf Hab.
    - eexists. split; [reflexivity|]. cbn. exists []. rewrite app_nil_r. split; auto. split; auto. intros [|j]; discriminate.
    - cbn [concreterize]. destruct OK as (O1 & O2 & O3 & O4 & O5 & HR & Li & Lf & Hi & Hfi). fold n in Li. fold nf in Lf.
      rewrite (wild_at (rc_iabs R)), (wild_at (rc_fabs R)), (wild_at (rc_ipath R)), (wild_at (rc_fpath R)) by (unfold n, nf in *; lia). cbn [obind]. rewrite Li, Lf. fold n nf.
      destruct (nth_error_ex _ (rc_iabs R) (n - S k)) as [a Ha]; [lia|]. rewrite <- (Hab (S k)), Ha by lia. cbn [obind]. rewrite Nat.eqb_refl. cbn [negb].
      assert (Ha': nth_error (rc_fabs R) (nf - S k) = Some a) by (rewrite <- Hab by lia; auto).
      destruct (rm_concrete_spec (rc_map R) a HR) as (ls & El & Nl & Hls). rewrite El. cbn [obind].
      assert (Ic: forall x, exists b, check_nfa_path (rc_addr R) (rc_infa R) (rc_ipath R) x (n - S k) = Some b /\ (b = true <-> enters (rc_infa R) (rc_ipath R) (n - S k) x))
        by (intros x; apply icheck; auto; fold n; lia).
      assert (Fc: forall x, exists b, check_nfa_path (rc_addr R) (rc_fnfa R) (rc_fpath R) x (nf - S k) = Some b /\ (b = true <-> enters (rc_fnfa R) (rc_fpath R) (nf - S k) x))
        by (intros x; apply fcheck; auto; fold nf; lia).
      remember (fun l => check_nfa_path (rc_addr R) (rc_infa R) (rc_ipath R) l (n - S k)) as fi eqn:Efi. remember (fun l => check_nfa_path (rc_addr R) (rc_fnfa R) (rc_fpath R) l (nf - S k)) as ff eqn:Eff.
      assert (Fi: forall x, fi x <> None /\ (fi x = Some true <-> enters (rc_infa R) (rc_ipath R) (n - S k) x)).
      { intros x. rewrite Efi. destruct (Ic x) as (b & -> & Hb). split; [discriminate|]. rewrite <- Hb. split; [intros K; injection K; auto|intros ->; auto]. }
      assert (Ff: forall x, ff x <> None /\ (ff x = Some true <-> enters (rc_fnfa R) (rc_fpath R) (nf - S k) x)).
      { intros x. rewrite Eff. destruct (Fc x) as (b & -> & Hb). split; [discriminate|]. rewrite <- Hb. split; [intros K; injection K; auto|intros ->; auto]. }
      destruct (scan_spec fi ff ls [] []) as (r & Er & Hr); [intros x _; split; [apply Fi|apply Ff]|]. rewrite Er. cbn [obind]. destruct r as [x|[ini fin]].
      + destruct Hr as (Hx & Hxi & Hxf). destruct (IH (acc ++ [x])) as (r & E & Hr'); [lia|lia|intros j Hj; apply Hab; lia|]. exists r. split; auto. destruct r as [h|rf].
        * destruct Hr' as (t & -> & Lt & Ht). exists (x :: t). rewrite <- app_assoc. split; auto. split; [cbn; lia|]. intros [|j] y Hj.
          -- injection Hj as <-. rewrite Nat.sub_0_r. split; [apply Fi; auto|]. split; [apply Ff; auto|]. exists a. split; auto. apply Hls. auto.
          -- apply (Ht j y Hj).
        * destruct Hr' as (H1 & H2 & j & H3 & H4). split; auto. split; auto. exists j. split; auto. lia.
      + destruct Hr as (H1 & -> & ->). cbn [app].
        set (gi := fun x => match fi x with Some b => b | None => false end). set (gf := fun x => match ff x with Some b => b | None => false end).
        assert (Gi: forall x, gi x = true <-> enters (rc_infa R) (rc_ipath R) (n - S k) x).
        { intros x. destruct (Fi x) as [D H]. rewrite <- H. unfold gi. destruct (fi x) as [[]|]; split; auto; discriminate. }
        assert (Gf: forall x, gf x = true <-> enters (rc_fnfa R) (rc_fpath R) (nf - S k) x).
        { intros x. destruct (Ff x) as [D H]. rewrite <- H. unfold gf. destruct (ff x) as [[]|]; split; auto; discriminate. }
        assert (Ni: filter gi ls <> []). { destruct (Hi _ _ Ha) as (x & X1 & X2). intros Z. assert (K: In x (filter gi ls)) by (apply filter_In; split; [apply Hls|apply Gi]; auto). rewrite Z in K. destruct K. }
        assert (Nf: filter gf ls <> []). { destruct (Hfi _ _ Ha') as (x & X1 & X2). intros Z. assert (K: In x (filter gf ls)) by (apply filter_In; split; [apply Hls|apply Gf]; auto). rewrite Z in K. destruct K. }
        destruct (is_nil (filter gi ls)) eqn:Zi; [apply is_nil_iff in Zi; congruence|]. destruct (is_nil (filter gf ls)) eqn:Zf; [apply is_nil_iff in Zf; congruence|]. cbn [orb].
        destruct (splits_mk (filter gi ls) (filter gf ls) a (nf - S k)) as (rf & E & Sp & Pp); auto.
        * intros x [Hx|Hx]; apply filter_In in Hx; apply Hls; tauto.
        * intros x Hx. apply filter_In in Hx. apply Gf. tauto.
        * intros x Hx K. apply filter_In in Hx. destruct Hx as [X1 X2]. apply (H1 x X1). split; [apply Fi, Gi; auto|apply Ff; auto].
        * rewrite E. cbn [obind]. eexists. split; [eauto|]. cbn. split; auto. split.
          -- rewrite Pp. cbn. rewrite app_nil_r. apply NoDup_app_intro.
             ++ apply ssorted_NoDup, sort_nat_ssorted, NoDup_filter; auto.
             ++ apply ssorted_NoDup, sort_nat_ssorted, NoDup_filter; auto.
             ++ intros x X1 X2. rewrite sort_nat_In in X1, X2. apply filter_In in X1, X2. apply (H1 x); [tauto|]. split; [apply Fi, Gi; tauto|apply Ff, Gf; tauto].
          -- exists (S k). split; [lia|]. intros x (K1 & K2 & a' & K3 & K4). assert (a' = a) by congruence. subst a'. apply (H1 x); [apply Hls; auto|]. split; [apply Fi; auto|apply Ff; auto].
  Qed.
  Theorem finalize_spec : forall h, h_size h = nf -> h_wild h <= n -> typed (rev (h_conc h)) ->
    (forall j, 0 < j <= h_wild h -> nth_error (rc_iabs R) (n - j) = nth_error (rc_fabs R) (nf - j)) ->
    exists r, finalize_header R h = Some r /\ match r with
      | inl h' => h_wild h' = 0 /\ exists w, represents R h w (rev (h_conc h')) /\ follows (rc_fnfa R) (rc_fpath R) (rev (h_conc h')) /\ typed (rev (h_conc h'))
      | inr rf => splits rf /\ (forall w s, represents R h w s -> typed s -> ~ follows (rc_fnfa R) (rc_fpath R) s) /\
          ((forall i x, nth_error (rev (h_conc h)) i = Some x -> enters (rc_fnfa R) (rc_fpath R) i x) -> NoDup (concat (rf_parts rf)))
      end.
  Proof.
    intros h Hs Hw Ht Hab. unfold finalize_header. fold nf. rewrite Hs, Nat.eqb_refl. cbn [negb].
    assert (Lc: length (rev (h_conc h)) + h_wild h = nf) by (rewrite rev_length; unfold h_size in Hs; lia).
    destruct (final_loop_spec (rev (h_conc h)) 0) as (r & E & Hr); [lia|exact Ht|]. rewrite E. cbn [obind]. destruct r as [u|rf].
    - destruct (concreterize_spec (h_wild h) []) as (c & Ec & Hc); [auto|lia|auto|]. rewrite Ec. cbn [obind]. destruct c as [h'|rf].
      + destruct Hc as (t & -> & Lt & Ft). eexists. split; [reflexivity|]. cbn [h_append h_wild h_conc app]. split; auto. rewrite rev_app_distr, rev_involutive.
        destruct word_ex as [w F]. assert (Lw: length w = n) by apply F. exists (put w (n - h_wild h) t). split; [split|split].
        * apply put_follows; auto; [fold n; lia|]. intros j x Hj. pose proof (nth_error_lt _ _ _ _ Hj). destruct (Ft j x Hj) as (H1 & _). replace (n - h_wild h + j) with (n - (h_wild h - j)) by lia. auto.
        * fold n. rewrite put_skipn by lia. rewrite skipn_all2 by lia. rewrite app_nil_r. auto.
        * split; [rewrite app_length; fold nf; lia|]. intros i x Hi. destruct (Nat.lt_ge_cases i (length (rev (h_conc h)))) as [K|K].
          -- rewrite nth_error_app1 in Hi by auto. apply (Hr i x Hi).
          -- rewrite nth_error_app2 in Hi by auto. pose proof (nth_error_lt _ _ _ _ Hi). destruct (Ft _ _ Hi) as (_ & H2 & _). replace i with (nf - (h_wild h - (i - length (rev (h_conc h))))) by lia. auto.
        * intros i x Hi. destruct (Nat.lt_ge_cases i (length (rev (h_conc h)))) as [K|K].
          -- rewrite nth_error_app1 in Hi by auto. apply (Ht i x Hi).
          -- rewrite nth_error_app2 in Hi by auto. pose proof (nth_error_lt _ _ _ _ Hi). destruct (Ft _ _ Hi) as (_ & _ & H3). replace i with (nf - (h_wild h - (i - length (rev (h_conc h))))) by lia. auto.
      + destruct Hc as (Sp & ND & j & Hj & Nj). eexists. split; [reflexivity|]. cbv beta iota. split; auto. split; auto. intros w s [F ->] Ty [L Fo]. fold n in Ty, Fo, L.
        assert (Lw: length w = n) by apply F. destruct (nth_error_ex _ w (n - j)) as [x Hx]; [lia|].
        assert (Hx': nth_error (rev (h_conc h) ++ skipn (n - h_wild h) w) (nf - j) = Some x).
        { rewrite nth_error_app2 by lia. rewrite <- Hx. rewrite <- (firstn_skipn (n - h_wild h) w) at 2. rewrite (nth_error_app2 (firstn _ _)); rewrite firstn_length_le by lia; [|lia]. f_equal. lia. }
        apply (Nj x). split; [apply F; auto|]. split; [apply Fo; auto|]. apply (Ty _ _ Hx').
    - destruct Hr as (Sp & j & x & Hj & Nj). eexists. split; [reflexivity|]. cbv beta iota. split; auto. split; [|intros K; exfalso; apply Nj, K; auto]. intros w s [F ->] Ty [L Fo]. apply Nj. apply Fo. rewrite nth_error_app1; auto. eapply nth_error_lt; eauto.
  Qed.
End Recon.
