(** Proofs about the queries on NFA states. *)
From Coq Require Import List Arith Lia Bool Sorted Permutation.
From Verif Require Import Base BaseFacts Spec SpecFacts PdaModel PdaProof AutModel AutProof PreStarLang PostStarLang NfaModel NfaProof
  ConstructProof NfaQueryModel.
Import ListNotations.

Lemma NoDup_app_intro : forall A (a b : list A), NoDup a -> NoDup b -> (forall x, In x a -> ~ In x b) -> NoDup (a ++ b).
Proof.
  intros A a b Ha Hb Hd. induction Ha as [|x a Hx Ha IH]; auto. cbn. constructor.
  - intros K. apply in_app_iff in K. destruct K; auto. apply (Hd x); cbn; auto.
  - apply IH. intros y Hy. apply Hd. cbn; auto.
Qed.
(** ** Set operations on sorted vectors *)
Lemma set_inter_nil_r : forall a, set_inter a [] = [].
Proof. destruct a; reflexivity. Qed.
Lemma set_inter_cons : forall x a y b, set_inter (x :: a) (y :: b) =
  if Nat.ltb x y then set_inter a (y :: b) else if Nat.ltb y x then set_inter (x :: a) b else x :: set_inter a b.
Proof. reflexivity. Qed.
Lemma set_diff_nil_r : forall a, set_diff a [] = a.
Proof. destruct a; reflexivity. Qed.
Lemma set_diff_cons : forall x a y b, set_diff (x :: a) (y :: b) =
  if Nat.ltb x y then x :: set_diff a (y :: b) else if Nat.ltb y x then set_diff (x :: a) b else set_diff a b.
Proof. reflexivity. Qed.
Lemma ssorted_cons : forall x l, ssorted (x :: l) <-> ssorted l /\ forall y, In y l -> x < y.
Proof.
  intros. unfold ssorted. split.
  - intros H; inversion H; subst. rewrite Forall_forall in *. auto.
  - intros [A B]. constructor; auto. apply Forall_forall; auto.
Qed.
Lemma not_mem_small : forall x y b, ssorted (y :: b) -> x < y -> sorted_mem x (y :: b) = false.
Proof.
  intros x y b H L. destruct (sorted_mem x (y :: b)) eqn:E; auto. apply sorted_mem_In in E; auto.
  apply ssorted_cons in H. destruct H as [_ H]. destruct E as [->|E]; [lia|]. apply H in E. lia.
Qed.
Lemma mem_skip : forall x y b, ssorted (y :: b) -> y < x -> sorted_mem x (y :: b) = sorted_mem x b.
Proof.
  intros x y b H L. assert (H' := H). apply ssorted_cons in H'. destruct H' as [H' _].
  destruct (sorted_mem x b) eqn:E.
  - apply sorted_mem_In; auto. apply sorted_mem_In in E; auto. right; auto.
  - destruct (sorted_mem x (y :: b)) eqn:E2; auto. apply sorted_mem_In in E2; auto. destruct E2 as [->|E2]; [lia|].
    apply sorted_mem_In in E2; auto. congruence.
Qed.
Lemma filter_ext_In : forall (f g : nat -> bool) l, (forall x, In x l -> f x = g x) -> filter f l = filter g l.
Proof. intros. apply filter_ext_in. auto. Qed.
Lemma set_inter_filter : forall a b, ssorted a -> ssorted b -> set_inter a b = filter (fun x => sorted_mem x b) a.
Proof.
  apply (set_union_ind (fun a b => ssorted a -> ssorted b -> set_inter a b = filter (fun x => sorted_mem x b) a)).
  - reflexivity.
  - intros a _ _. rewrite set_inter_nil_r. induction a; auto.
  - intros x a y b I1 I2 I3 Ha Hb. rewrite set_inter_cons. cbn [filter].
    assert (Ha' := Ha). assert (Hb' := Hb). apply ssorted_cons in Ha'. apply ssorted_cons in Hb'. destruct Ha' as [Sa La]. destruct Hb' as [Sb Lb].
    destruct (Nat.ltb_spec x y) as [L|L].
    + rewrite (not_mem_small x y b Hb L). auto.
    + destruct (Nat.ltb_spec y x) as [L2|L2].
      * rewrite I2 by auto. cbn [filter]. rewrite (mem_skip x y b Hb L2).
        rewrite (filter_ext_In (fun z => sorted_mem z b) (fun z => sorted_mem z (y :: b)) a); auto.
        intros z Hz. symmetry. apply mem_skip; auto. apply La in Hz. lia.
      * assert (y = x) by lia. subst y. assert (sorted_mem x (x :: b) = true) as -> by (apply sorted_mem_In; auto; left; auto).
        f_equal. rewrite I3 by auto. apply filter_ext_In. intros z Hz. symmetry. apply mem_skip; auto.
Qed.
Lemma set_diff_filter : forall a b, ssorted a -> ssorted b -> set_diff a b = filter (fun x => negb (sorted_mem x b)) a.
Proof.
  apply (set_union_ind (fun a b => ssorted a -> ssorted b -> set_diff a b = filter (fun x => negb (sorted_mem x b)) a)).
  - reflexivity.
  - intros a _ _. rewrite set_diff_nil_r. induction a; auto. cbn. f_equal. auto.
  - intros x a y b I1 I2 I3 Ha Hb. rewrite set_diff_cons. cbn [filter].
    assert (Ha' := Ha). assert (Hb' := Hb). apply ssorted_cons in Ha'. apply ssorted_cons in Hb'. destruct Ha' as [Sa La]. destruct Hb' as [Sb Lb].
    destruct (Nat.ltb_spec x y) as [L|L].
    + rewrite (not_mem_small x y b Hb L). cbn. f_equal. auto.
    + destruct (Nat.ltb_spec y x) as [L2|L2].
      * rewrite I2 by auto. cbn [filter]. rewrite (mem_skip x y b Hb L2).
        rewrite (filter_ext_In (fun z => negb (sorted_mem z b)) (fun z => negb (sorted_mem z (y :: b))) a); auto.
        intros z Hz. f_equal. symmetry. apply mem_skip; auto. apply La in Hz. lia.
      * assert (y = x) by lia. subst y. assert (sorted_mem x (x :: b) = true) as -> by (apply sorted_mem_In; auto; left; auto).
        cbn. rewrite I3 by auto. apply filter_ext_In. intros z Hz. f_equal. symmetry. apply mem_skip; auto.
Qed.
Lemma edge_part : forall e labels, ssorted labels -> ssorted (ne_sym e) ->
  (if ne_neg e then set_diff labels (ne_sym e) else set_inter labels (ne_sym e)) = filter (ne_contains e) labels.
Proof.
  intros e labels Hl He. unfold ne_contains. destruct (ne_neg e).
  - rewrite set_diff_filter by auto. apply filter_ext_In. intros x _. destruct (sorted_mem x (ne_sym e)); auto.
  - rewrite set_inter_filter by auto. apply filter_ext_In. intros x _. destruct (sorted_mem x (ne_sym e)); auto.
Qed.
Lemma ne_contains_ok : forall e x, ssorted (ne_sym e) -> (ne_contains e x = true <-> sym_ok e x).
Proof.
  intros e x H. unfold ne_contains, sym_ok. pose proof (sorted_mem_In x (ne_sym e) H) as M.
  destruct (ne_neg e), (sorted_mem x (ne_sym e)); cbn; intuition congruence.
Qed.
(** A range merged with one of its extensions gives the extension, sorted or not. *)
Lemma set_union_prefix : forall a b, set_union a (a ++ b) = a ++ b.
Proof.
  induction a as [|x a IH]; intros b; [destruct b; reflexivity|]. cbn [app]. rewrite set_union_cons, Nat.ltb_irrefl, IH. auto.
Qed.

Section Q.
  Variable addr : nat -> nat.
  Hypothesis addr_inj : forall i j, addr i = addr j -> i = j.
  Variable N : nfa.
  Hypothesis W : nfa_wf N.
  Let m := length (n_states N).

  Lemma edges_from_spec : forall sts, (forall s, In s sts -> s < m) -> exists es, edges_from N sts = Some es /\
    forall e, In e es <-> exists s st, In s sts /\ nth_error (n_states N) s = Some st /\ In e (ns_edges st).
  Proof.
    induction sts as [|s sts IH]; intros Hr; cbn [edges_from].
    - exists []. split; auto. intros e. split; [intros []|intros (s & st & [] & _)].
    - destruct (nth_error_ex _ (n_states N) s) as [st Est]; [apply Hr; left; auto|]. rewrite Est. cbn [obind].
      destruct IH as (es & E & H); [intros; apply Hr; right; auto|]. rewrite E. cbn. eexists. split; [reflexivity|].
      intros e. rewrite in_app_iff, H. split.
      + intros [K|(s' & st' & K1 & K2 & K3)]; [exists s, st; cbn; auto|exists s', st'; cbn; auto].
      + intros (s' & st' & [<-|K1] & K2 & K3); [left; congruence|right; eauto].
  Qed.
  Lemma edges_from_wf : forall sts es e, edges_from N sts = Some es -> In e es -> ne_dst e < m /\ ssorted (ne_sym e).
  Proof.
    induction sts as [|s sts IH]; cbn [edges_from]; intros es e E H.
    - injection E as <-. destruct H.
    - destruct (nth_error (n_states N) s) as [st|] eqn:Es; [|discriminate]. cbn in E. destruct (edges_from N sts) as [es'|]; [|discriminate].
      injection E as <-. apply in_app_iff in H. destruct H as [H|H]; [eapply (nw_dst _ W); eauto|eauto].
  Qed.

  (** ** leads_to_by_epsilon *)
  Lemma addr_insert_false : forall x l, snd (addr_insert addr x l) = false -> fst (addr_insert addr x l) = l.
  Proof.
    induction l as [|y l IH]; cbn; [discriminate|]. destruct (addr_ltb addr y x); cbn; [intros H; f_equal; auto|].
    destruct (Nat.eqb y x); auto. discriminate.
  Qed.
  Lemma addr_insert_In : forall x l y, In y (fst (addr_insert addr x l)) -> y = x \/ In y l.
  Proof.
    induction l as [|z l IH]; cbn; intros y; [intuition|]. destruct (addr_ltb addr z x); cbn.
    - intros [H|H]; auto. apply IH in H. tauto.
    - destruct (Nat.eqb z x); cbn; intuition.
  Qed.
  Definition hits (to : nat) (e : nedge) : bool := ne_eps e && Nat.eqb (ne_dst e) to.
  Lemma lte_edges_fold : forall to es seen wait, lte_edges addr to es seen wait =
    if existsb (hits to) es then None else Some (fold_left (fe_edge addr) es (seen, wait)).
  Proof.
    intros to. induction es as [|e es IH]; intros seen wait; cbn [lte_edges existsb fold_left]; auto.
    unfold hits at 1. unfold fe_edge at 2. cbn [fst snd]. destruct (ne_eps e); cbn [andb].
    - destruct (Nat.eqb (ne_dst e) to); cbn [orb]; auto. rewrite IH. destruct (existsb (hits to) es); auto. f_equal. f_equal.
      destruct (snd (addr_insert addr (ne_dst e) seen)) eqn:E; auto. rewrite addr_insert_false; auto.
    - cbn [orb]. apply IH.
  Qed.
  Lemma fe_fold_new : forall es seen wait x, In x (fst (fold_left (fe_edge addr) es (seen, wait))) -> In x seen \/ exists e, In e es /\ hits x e = true.
  Proof.
    induction es as [|e es IH]; intros seen wait x H; cbn [fold_left] in H; auto.
    unfold fe_edge at 2 in H. cbn [fst snd] in H. destruct (ne_eps e) eqn:Ee.
    - destruct (snd (addr_insert addr (ne_dst e) seen)).
      + apply IH in H. destruct H as [H|(e' & H1 & H2)]; [|right; exists e'; cbn; auto].
        apply addr_insert_In in H. destruct H as [->|H]; auto. right. exists e. split; [left; auto|]. unfold hits. rewrite Ee, Nat.eqb_refl. auto.
      + apply IH in H. destruct H as [H|(e' & H1 & H2)]; auto. right; exists e'; cbn; auto.
    - apply IH in H. destruct H as [H|(e' & H1 & H2)]; auto. right; exists e'; cbn; auto.
  Qed.
  Lemma lte_loop_spec : forall from to fuel seen wait, FE addr N [from] seen wait ->
    (forall s, In s seen -> In s wait \/ clos N seen s) -> ~ In to seen -> length wait + unseen N seen <= fuel ->
    exists b, lte_loop addr N to fuel seen wait = Some b /\ (b = true <-> eps_to N from to).
  Proof.
    intros from to. induction fuel as [|fuel IH]; intros seen wait F C Hto Hm.
    - destruct wait; [|cbn in Hm; lia]. cbn. exists false. split; auto. split; [discriminate|]. intros He. exfalso. apply Hto.
      apply (clos_path N seen) with from; auto. { intros s Hs. destruct (C s Hs) as [[]|K]; auto. } apply (fe_init _ _ _ _ _ F). left; auto.
    - destruct wait as [|s wait]; cbn [lte_loop].
      { exists false. split; auto. split; [discriminate|]. intros He. exfalso. apply Hto.
        apply (clos_path N seen) with from; auto. { intros s Hs. destruct (C s Hs) as [[]|K]; auto. } apply (fe_init _ _ _ _ _ F). left; auto. }
      assert (Hs: In s seen) by (apply (fe_wait _ _ _ _ _ F); cbn; auto). pose proof (fe_range _ _ _ _ _ F _ Hs) as Hr.
      destruct (nth_error_ex _ (n_states N) s Hr) as [st Est]. rewrite Est. cbn [obind]. rewrite lte_edges_fold.
      destruct (existsb (hits to) (ns_edges st)) eqn:Eh.
      + exists true. split; auto. split; auto. intros _. apply existsb_exists in Eh. destruct Eh as (e & He & Hh).
        apply andb_true_iff in Hh. destruct Hh as [H1 H2]. apply Nat.eqb_eq in H2.
        destruct (fe_from _ _ _ _ _ F _ Hs) as (s0 & [<-|[]] & Hp). unfold eps_to in *. rewrite <- (app_nil_r []).
        apply (apath_app _ _ _ s); auto. eapply ap_eps; [|constructor]. exists st, e. auto.
      + assert (F0: FE addr N [from] seen wait). { destruct F; constructor; auto. intros x Hx. apply fe_wait. cbn; auto. }
        destruct (fe_edges_spec addr addr_inj N [from] s (ns_edges st) seen wait) as [I1 [I2 [I3 [I4 [I5 I6]]]]]; auto.
        { intros e He. destruct (nw_dst _ W _ _ _ Est He) as [D _]. split; auto. intros Ee. exists st, e. auto. }
        destruct (fold_left (fe_edge addr) (ns_edges st) (seen, wait)) as [seen' wait'] eqn:Ef. cbn [fst snd] in *.
        apply IH; auto; [| |cbn in Hm; lia].
        * intros x Hx. destruct (I3 x Hx) as [K|K]; auto. destruct (C x K) as [[<-|K2]|K2].
          -- right. intros s' [st' [e [E1 [E2 [<- E3]]]]]. assert (st' = st) by congruence. subst. auto.
          -- left. auto.
          -- right. intros s' Hs'. apply I2. auto.
        * intros Hin. assert (Hn : In to (fst (fold_left (fe_edge addr) (ns_edges st) (seen, wait)))) by (rewrite Ef; auto).
          apply fe_fold_new in Hn. destruct Hn as [Hn|(e & He & Hh)]; auto.
          assert (existsb (hits to) (ns_edges st) = true) by (apply existsb_exists; eauto). congruence.
  Qed.
  Lemma unseen_le : forall sts, unseen N sts <= m.
  Proof.
    intros sts. unfold unseen, m. rewrite <- (seq_length (length (n_states N)) 0) at 2.
    set (l := seq 0 _). clearbody l. induction l as [|x l IH]; cbn; auto. destruct (negb _); cbn; lia.
  Qed.
  Theorem leads_to_spec : forall from to, from < m ->
    exists b, leads_to_by_epsilon addr N from to = Some b /\ (b = true <-> eps_to N from to).
  Proof.
    intros from to Hf. unfold leads_to_by_epsilon. destruct (Nat.eqb_spec from to) as [->|Hne].
    - exists true. split; auto. split; auto. intros _. constructor.
    - apply lte_loop_spec.
      + constructor; [repeat constructor|intros s [<-|[]]; auto|apply incl_refl|apply incl_refl|]. intros s [<-|[]]. exists from. split; [left; auto|constructor].
      + intros s Hs. left. auto.
      + intros [H|[]]. auto.
      + pose proof (unseen_le [from]). fold m. cbn [length]. lia.
  Qed.

  (** ** successor *)
  Lemma next_spec : forall l es next, asorted addr next ->
    let r := fold_left (fun next e => if ne_contains e l then fst (addr_insert addr (ne_dst e) next) else next) es next in
    asorted addr r /\ forall q, In q r <-> In q next \/ exists e, In e es /\ ne_contains e l = true /\ ne_dst e = q.
  Proof.
    intros l. induction es as [|e es IH]; intros next Hs; cbn [fold_left].
    - split; auto. intros q. split; auto. intros [H|(e & [] & _)]; auto.
    - destruct (ne_contains e l) eqn:E.
      + destruct (addr_insert_spec addr addr_inj (ne_dst e) next Hs) as (A1 & A2 & _). destruct (IH _ A1) as [I1 I2]. split; auto.
        intros q. rewrite I2, A2. split.
        * intros [[->|H]|(e' & H1 & H2)]; auto; right; [exists e; cbn; auto|exists e'; cbn; auto].
        * intros [H|(e' & [<-|H1] & H2 & H3)]; auto. right. exists e'. auto.
      + destruct (IH next Hs) as [I1 I2]. split; auto. intros q. rewrite I2. split.
        * intros [H|(e' & H1 & H2)]; auto. right. exists e'; cbn; auto.
        * intros [H|(e' & [<-|H1] & H2 & H3)]; auto; [congruence|]. right. exists e'. auto.
  Qed.
  Theorem successor_spec : forall sts l, (forall s, In s sts -> s < m) -> exists r, successor addr N sts l = Some r /\ asorted addr r /\
    forall q, In q r <-> fe_keep N q = true /\ exists s d, In s sts /\ nE N s (Some l) d /\ eps_to N d q.
  Proof.
    intros sts l Hr. destruct (edges_from_spec sts Hr) as (es & E & He). unfold successor. rewrite E. cbn [obind].
    destruct (next_spec l es []) as [A1 A2]; [constructor|]. cbn zeta in *.
    destruct (follow_epsilon_spec addr addr_inj N W _ A1) as (r & Er & S1 & S2).
    { intros s Hs. apply A2 in Hs. destruct Hs as [[]|(e & H1 & _ & <-)]. eapply edges_from_wf; eauto. }
    exists r. split; auto. split; auto. intros q. rewrite S2. split; intros [K1 K2]; split; auto.
    - destruct K2 as (d & K2 & K3). apply A2 in K2. destruct K2 as [[]|(e & H1 & H2 & <-)].
      pose proof (edges_from_wf _ _ _ E H1) as [_ Hy]. apply ne_contains_ok in H2; auto.
      apply He in H1. destruct H1 as (s & st & H3 & H4 & H5). exists s, (ne_dst e). split; auto. split; auto. exists st, e. auto.
    - destruct K2 as (s & d & H1 & (st & e & H2 & H3 & <- & H4) & H5). exists (ne_dst e). split; auto. apply A2. right. exists e.
      assert (In e es) by (apply He; eauto). split; auto. split; auto. apply ne_contains_ok; auto. eapply edges_from_wf; eauto.
  Qed.
  Lemma find_addr : forall goal r, asorted addr r ->
    (match drop_while (fun s => addr_ltb addr s goal) r with s :: _ => Nat.eqb s goal | [] => false end) = true <-> In goal r.
  Proof.
    intros goal r H. induction H as [|x r H IH Hx]; cbn [drop_while]; [split; [discriminate|intros []]|].
    unfold addr_ltb at 1. destruct (Nat.ltb_spec (addr x) (addr goal)) as [L|L].
    - rewrite IH. cbn. split; auto. intros [->|K]; auto. lia.
    - rewrite Nat.eqb_eq. cbn. split; auto. intros [K|K]; auto. rewrite Forall_forall in Hx. apply Hx in K. apply addr_inj. lia.
  Qed.
  Theorem has_as_successor_spec : forall sts l goal, (forall s, In s sts -> s < m) -> exists b, has_as_successor addr N sts l goal = Some b /\
    (b = true <-> fe_keep N goal = true /\ exists s d, In s sts /\ nE N s (Some l) d /\ eps_to N d goal).
  Proof.
    intros sts l goal Hr. destruct (successor_spec sts l Hr) as (r & E & S1 & S2). unfold has_as_successor. rewrite E. cbn [obind].
    eexists. split; [reflexivity|]. rewrite find_addr by auto. apply S2.
  Qed.

  (** ** intersect_edge_labels *)
  (** The edges, with their positions removed, that lead to [to]; what they contribute. *)
  Definition parts (to : nat) (labels : list nat) (P : nedge -> bool) (es : list nedge) : list nat :=
    flat_map (fun e => if P e then filter (ne_contains e) labels else []) es.
  Lemma iel_loop_spec : forall to labels P, ssorted labels ->
    (forall e b, leads_to_by_epsilon addr N (ne_dst e) to = Some b -> P e = b) ->
    forall es acc, (forall e, In e es -> ne_dst e < m /\ ssorted (ne_sym e)) -> incl acc labels ->
    exists r, iel_loop addr N to labels es acc acc = Some r /\
      incl r labels /\
      (forall x, In x r -> In x acc \/ exists e, In e es /\ P e = true /\ ne_contains e x = true) /\
      (NoDup (acc ++ parts to labels P es) -> forall x, In x (acc ++ parts to labels P es) -> In x r).
  Proof.
    intros to labels P Hl HP. induction es as [|e es IH]; intros acc He Ha; cbn [iel_loop].
    - exists acc. split; auto. split; auto. split; auto. cbn. intros _ x. rewrite app_nil_r. auto.
    - destruct (He e (or_introl eq_refl)) as [D Sy]. destruct (leads_to_spec (ne_dst e) to D) as (b & Eb & _). rewrite Eb. cbn [obind].
      pose proof (HP e b Eb) as Pe. assert (He' : forall e', In e' es -> ne_dst e' < m /\ ssorted (ne_sym e')) by (intros; apply He; right; auto).
      destruct b; cbn [negb].
      + destruct (ne_neg e && match ne_sym e with [] => true | _ => false end) eqn:Ew.
        * apply andb_true_iff in Ew. destruct Ew as [E1 E2]. destruct (ne_sym e) eqn:E3; [|discriminate].
          assert (All : forall x, ne_contains e x = true). { intros x. unfold ne_contains. rewrite E1, E3. reflexivity. }
          exists labels. split; auto. split; [apply incl_refl|]. split.
          -- intros x _. right. exists e. split; [left; auto|]. auto.
          -- intros _ x Hx. apply in_app_iff in Hx. destruct Hx as [Hx|Hx]; auto.
             unfold parts in Hx. apply in_flat_map in Hx. destruct Hx as (e' & _ & Hx). destruct (P e'); [|destruct Hx].
             apply filter_In in Hx. tauto.
        * rewrite edge_part by auto. cbn zeta. rewrite set_union_prefix.
          assert (Hi : incl (acc ++ filter (ne_contains e) labels) labels).
          { intros x Hx. apply in_app_iff in Hx. destruct Hx as [Hx|Hx]; auto. apply filter_In in Hx. tauto. }
          cbn [parts flat_map]. rewrite Pe. fold (parts to labels P es). rewrite app_assoc.
          destruct (Nat.eqb_spec (length (acc ++ filter (ne_contains e) labels)) (length labels)) as [El|El].
          -- eexists. split; [reflexivity|]. split; auto. split.
             { intros x Hx. apply in_app_iff in Hx. destruct Hx as [Hx|Hx]; auto. right. exists e. apply filter_In in Hx. split; [left; auto|]. tauto. }
             intros Hn x Hx. apply in_app_iff in Hx. destruct Hx as [Hx|Hx]; auto.
             assert (Hxl : In x labels).
             { unfold parts in Hx. apply in_flat_map in Hx. destruct Hx as (e' & _ & Hx). destruct (P e'); [|destruct Hx]. apply filter_In in Hx. tauto. }
             apply (NoDup_length_incl (l := acc ++ filter (ne_contains e) labels) (l' := labels)); auto; [|lia].
             revert Hn. clear. intros Hn. induction (acc ++ filter (ne_contains e) labels) as [|y l IH]; [constructor|].
             cbn in Hn. inversion Hn; subst. constructor; auto. intros K. apply H1. apply in_app_iff. auto.
          -- destruct (IH (acc ++ filter (ne_contains e) labels) He' Hi) as (r & E & R1 & R2 & R3). exists r. split; auto. split; auto. split; auto.
             intros x Hx. apply R2 in Hx. destruct Hx as [Hx|(e' & K1 & K2 & K3)].
             ++ apply in_app_iff in Hx. destruct Hx as [Hx|Hx]; auto. right. exists e. apply filter_In in Hx. split; [left; auto|]. tauto.
             ++ right. exists e'. split; [right; auto|]. auto.
      + destruct (IH acc He' Ha) as (r & E & R1 & R2 & R3). exists r. split; auto. split; auto. split.
        * intros x Hx. apply R2 in Hx. destruct Hx as [Hx|(e' & K1 & K2)]; auto. right. exists e'. split; [right; auto|auto].
        * cbn [parts flat_map]. rewrite Pe. cbn [app]. auto.
  Qed.
End Q.
