(** Label sets and NFAs under a label abstraction. *)
From Coq Require Import List Arith Lia Bool Permutation Sorted.
From Verif Require Import Base BaseFacts Spec SpecFacts PdaModel PdaProof AutModel AutProof PreStarLang PostStarLang NfaModel NfaProof ConstructProof ContainersModel ContainersProof
  TrieModel RefineModel MappingProof RefineProof PairProof RegexProof AbstractionModel.
Import ListNotations.

Lemma includes_spec : forall a b, ssorted a -> ssorted b -> (includes a b = true <-> forall x, In x b -> In x a).
Proof.
  induction a as [|x a IH]; intros b Sa Sb; (destruct b as [|y b]; [cbn; intuition|]).
  - cbn. split; [discriminate|]. intros H. destruct (H y (or_introl eq_refl)).
  - inversion Sa as [|? ? Sa' Fa]; subst. inversion Sb as [|? ? Sb' Fb]; subst. rewrite Forall_forall in *. cbn [includes]. destruct (Nat.ltb_spec y x) as [L|L].
    + split; [discriminate|]. intros H. destruct (H y (or_introl eq_refl)) as [<-|K]; [lia|]. apply Fa in K. lia.
    + destruct (Nat.ltb_spec x y) as [L'|L'].
      * rewrite IH; auto. split.
        -- intros H z Hz. right. auto.
        -- intros H z Hz. destruct (H z Hz) as [<-|K]; auto. destruct Hz as [<-|Hz]; [lia|]. apply Fb in Hz. lia.
      * assert (x = y) by lia. subst y. rewrite IH; auto. split.
        -- intros H z [<-|Hz]; cbn; auto.
        -- intros H z Hz. destruct (H z (or_intror Hz)) as [<-|K]; auto. apply Fb in Hz. lia.
Qed.
Lemma remove_if_spec : forall f l, (forall x, In x l -> f x <> None) -> exists r, remove_if f l = Some r /\ (forall x, In x r <-> In x l /\ f x = Some false) /\ (ssorted l -> ssorted r).
Proof.
  induction l as [|x l IH]; intros H; [exists []; cbn; intuition|]. cbn [remove_if]. destruct (f x) as [b|] eqn:E; [|destruct (H x); cbn; auto].
  destruct IH as (r & Er & I1 & I2); [intros y Hy; apply H; cbn; auto|]. rewrite Er. cbn [obind]. eexists. split; [reflexivity|]. split.
  - intros y. destruct b; cbn; rewrite I1; split.
    + tauto. + intros [[->|K] K']; [congruence|auto].
    + intros [->|K]; auto. tauto. + intros [[->|K] K']; auto.
  - intros S. inversion S as [|? ? S1 F]; subst. specialize (I2 S1). destruct b; auto. constructor; auto. rewrite Forall_forall in F. apply Forall_forall. intros y Hy. apply I1 in Hy. apply F. tauto.
Qed.
(** What the encoding of a sorted set of known labels is. *)
Definition touched (m : rmap) (labels : list nat) (a : nat) : Prop := exists x, In x labels /\ rm_exists m x = Some a.
Definition full (m : rmap) (labels : list nat) (a : nat) : Prop := forall x, rm_exists m x = Some a -> In x labels.
Lemma full_dec : forall m labels a, RI m -> full m labels a \/ exists x, rm_exists m x = Some a /\ ~ In x labels.
Proof.
  intros m labels a R. destruct (rm_concrete_spec m a R) as (l & _ & _ & Hl).
  destruct (forallb (fun x => if in_dec Nat.eq_dec x labels then true else false) l) eqn:E.
  - left. intros x Hx. apply Hl in Hx. rewrite forallb_forall in E. specialize (E x Hx). destruct (in_dec Nat.eq_dec x labels); auto. discriminate.
  - right. apply not_true_iff_false in E. destruct (existsb (fun x => if in_dec Nat.eq_dec x labels then false else true) l) eqn:E'.
    + apply existsb_exists in E'. destruct E' as (x & Hx & E'). exists x. split; [apply Hl; auto|]. destruct (in_dec Nat.eq_dec x labels); auto. discriminate.
    + exfalso. apply E. apply forallb_forall. intros x Hx. destruct (in_dec Nat.eq_dec x labels) eqn:D; auto.
      assert (existsb (fun x => if in_dec Nat.eq_dec x labels then false else true) l = true); [|congruence]. apply existsb_exists. exists x. rewrite D. auto.
Qed.
Theorem encode_spec : forall m labels neg, RI m -> ssorted labels -> (forall x, In x labels -> exists a, rm_exists m x = Some a) ->
  exists r, encode_labels m labels neg = Some r /\ ssorted r /\ (forall a, In a r -> a < rm_size m) /\
    forall a, In a r <-> touched m labels a /\ (neg = true -> ~ full m labels a).
Proof.
  intros m labels neg R S K. unfold encode_labels. rewrite is_sorted_ss by auto. unfold rm_encode_many.
  destruct (omap_def _ _ (rm_exists m) labels) as (l & El); [intros x Hx; destruct (K x Hx) as [a Ha]; congruence|]. rewrite El. cbn [obind].
  assert (Hl: forall a, In a (sort_set l) <-> touched m labels a) by (intros a; rewrite sort_set_In, (omap_In _ _ _ _ _ a El); unfold touched; tauto).
  assert (Hlt: forall a, touched m labels a -> a < rm_size m).
  { intros a (x & _ & Hx). apply rm_exists_iff in Hx; [|apply ri_keys; auto]. destruct Hx as (k & _ & Hx). apply (ri_lt m R k); auto. }
  destruct neg.
  - assert (Hc: forall a, exists b, covered m labels a = Some b /\ (b = true <-> full m labels a)).
    { intros a. unfold covered. destruct (rm_concrete_spec m a R) as (c & Ec & Nc & Hc). rewrite Ec. cbn [obind]. eexists. split; [reflexivity|].
      rewrite includes_spec; auto; [|apply sort_nat_ssorted; auto]. unfold full. split; intros H x Hx; apply H; [apply sort_nat_In, Hc; auto|apply Hc, sort_nat_In; auto]. }
    destruct (remove_if_spec (covered m labels) (sort_set l)) as (r & Er & I1 & I2); [intros a _; destruct (Hc a) as (b & Hb & _); congruence|].
    exists r. rewrite Er. ands; auto; [apply I2, sort_set_ssorted|intros a Ha; apply Hlt, Hl, I1; auto|]. intros a. rewrite I1, Hl. destruct (Hc a) as (b & Hb & Hb'). rewrite Hb. split.
    + intros [H1 H2]. split; auto. intros _ F. apply Hb' in F. congruence.
    + intros [H1 H2]. split; auto. f_equal. destruct b; auto. exfalso. apply H2; auto. apply Hb'. auto.
  - eexists. split; [reflexivity|]. ands; [apply sort_set_ssorted|intros a Ha; apply Hlt, Hl; auto|]. intros a. rewrite Hl. split; [|tauto]. intros H. split; auto. discriminate.
Qed.
(** The abstract labels of the encoded edge. *)
Lemma abstract_edge : forall m P neg labels, RI m -> ssorted labels -> (forall x, In x labels -> exists a, rm_exists m x = Some a) -> pd_nlab P = rm_size m ->
  exists r, encode_labels m labels neg = Some r /\ ssorted r /\
    (forall a, In a (edge_labels P neg r) <-> a < rm_size m /\ if neg then (~ touched m labels a \/ full m labels a) else touched m labels a).
Proof.
  intros m P neg labels R S K HP. destruct (encode_spec m labels neg R S K) as (r & E & Sr & L & H). exists r. ands; auto. intros a. unfold edge_labels. destruct neg.
  - rewrite neg_labels_In; auto; [|intros y Hy; split; [lia|]; rewrite HP; auto]. rewrite HP, H. split.
    + intros [H1 H2]. split; [lia|]. destruct (full_dec m labels a R) as [F|(x & Hx & Hn)]; auto. left. intros T. apply H2. split; auto.
    + intros [H1 H2]. split; [lia|]. intros [T F]. destruct H2 as [H2|H2]; auto. apply F; auto.
  - split.
    + intros Ha. split; auto. apply H; auto.
    + intros [_ T]. apply H. split; auto. discriminate.
Qed.

(** *** The automaton *)
(** The labels an edge of the NFA has under the abstraction. *)
Definition abs_ok (m : rmap) (e : nedge) (a : nat) : Prop :=
  a < rm_size m /\ if ne_neg e then (~ touched m (ne_sym e) a \/ full m (ne_sym e) a) else touched m (ne_sym e) a.
Definition absE (m : rmap) (N : nfa) : edgeset := fun q l q' =>
  exists st e, nth_error (n_states N) q = Some st /\ In e (ns_edges st) /\ ne_dst e = q' /\ match l with None => ne_eps e = true | Some a => abs_ok m e a end.
Definition known (m : rmap) (N : nfa) : Prop := forall q e x, nfa_edge N q e -> In x (ne_sym e) -> exists a, rm_exists m x = Some a.
Theorem abstraction_spec : forall m addr P ord N states, (forall i j, addr i = addr j -> i = j) -> nfa_wf N -> compiled addr N -> RI m -> known m N -> pd_nlab P = rm_size m ->
  (forall q l, Permutation (ord q l) l) -> ssorted states -> (forall s, In s states -> s < pd_n P) ->
  exists A, abstraction_aut m addr P ord N states = Some A /\ post_ok P A /\
    forall q w, aut_lang (pd_n P) A (q, w) <-> In q states /\ exists i f, In i (n_init N) /\ apath (absE m N) i w f /\ nF N f.
Proof.
  intros m addr P ord N states Hi W C R K HP Ho Ss Hs. unfold abstraction_aut.
  assert (HE: forall q e, nfa_edge N q e -> exists r, encode_labels m (ne_sym e) (ne_neg e) = Some r /\ ssorted r /\ forall a, In a (edge_labels P (ne_neg e) r) <-> abs_ok m e a).
  { intros q e He. pose proof He as [st [E1 E2]]. destruct (nw_dst _ W _ _ _ E1 E2) as [_ So]. apply (abstract_edge m P (ne_neg e) (ne_sym e) R So); auto. intros x Hx. eapply K; eauto. }
  assert (T: forallb (fun st => forallb (fun e => negb (is_none (encode_labels m (ne_sym e) (ne_neg e)))) (ns_edges st)) (n_states N) = true).
  { apply forallb_forall. intros st Hst. apply forallb_forall. intros e He. apply In_nth_error in Hst. destruct Hst as [q Hq].
    destruct (HE q e) as (r & E & _); [exists st; auto|]. rewrite E. auto. }
  rewrite T. remember (fun e => match encode_labels m (ne_sym e) (ne_neg e) with Some l => l | None => [] end) as f eqn:Ef.
  assert (Hf: forall q e, nfa_edge N q e -> ssorted (f e) /\ forall a, In a (elabs P f e) <-> abs_ok m e a).
  { intros q e He. destruct (HE q e He) as (r & E & S & H). unfold elabs. subst f. rewrite E. auto. }
  destruct (aut_of_nfa_mapped addr P ord N f states) as (A & EA & PO & L); auto.
  - intros e He. subst f. unfold encode_labels. rewrite He. cbn. destruct (ne_neg e); auto.
  - intros q e He _. apply is_sorted_ss. apply (Hf q e He).
  - intros q e x He Hx. rewrite HP. apply (Hf q e He) in Hx. apply Hx.
  - exists A. ands; auto. intros q w. rewrite L.
    assert (G: forall i w g, apath (mE P N f) i w g <-> apath (absE m N) i w g).
    { intros i w0 g. split; intros H.
      - induction H as [q0|q0 l q1 w0 q2 He H IH|q0 q1 w0 q2 He H IH]; [constructor|apply ap_lab with q1; auto|apply ap_eps with q1; auto].
        + destruct He as (e & H1 & H2 & H3). pose proof H1 as (st & E1 & E2). exists st, e. ands; auto. apply (Hf q0 e H1). auto.
        + destruct He as (e & H1 & H2 & H3). pose proof H1 as (st & E1 & E2). exists st, e. ands; auto.
      - induction H as [q0|q0 l q1 w0 q2 He H IH|q0 q1 w0 q2 He H IH]; [constructor|apply ap_lab with q1; auto|apply ap_eps with q1; auto].
        + destruct He as (st & e & H1 & H2 & H3 & H4). exists e. assert (nfa_edge N q0 e) by (exists st; auto). ands; auto. apply (Hf q0 e); auto.
        + destruct He as (st & e & H1 & H2 & H3 & H4). exists e. ands; auto. exists st; auto. }
    split; intros [Hq (i & g & H1 & H2 & H3)]; split; auto; exists i, g; ands; auto; apply G; auto.
Qed.
