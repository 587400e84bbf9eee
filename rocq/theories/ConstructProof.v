(** From an NFA to a P-automaton: epsilon closure, compile, and the automaton constructors. *)
From Coq Require Import List Arith Lia Bool Sorted Permutation.
From Verif Require Import Base BaseFacts Spec SpecFacts PdaModel PdaProof AutModel AutProof PreStarLang PostStarLang NfaModel NfaProof.
Import ListNotations.

Lemma memb_In : forall x l, memb x l = true <-> In x l.
Proof. intros x l. induction l as [|y l IH]; cbn; [split; [discriminate|tauto]|]. rewrite orb_true_iff, IH, Nat.eqb_eq. intuition. Qed.
Lemma filter_le : forall (f g : nat -> bool) l, (forall x, In x l -> f x = true -> g x = true) -> length (filter f l) <= length (filter g l).
Proof.
  intros f g l H. induction l as [|x l IH]; cbn; auto. assert (IH' : length (filter f l) <= length (filter g l)) by (apply IH; intros; apply H; cbn; auto).
  destruct (f x) eqn:E; [rewrite H by (cbn; auto); cbn; lia|destruct (g x); cbn; lia].
Qed.
Lemma filter_lt : forall (f g : nat -> bool) l y, (forall x, In x l -> f x = true -> g x = true) -> In y l -> f y = false -> g y = true -> length (filter f l) < length (filter g l).
Proof.
  intros f g l y H Hy Hf Hg. induction l as [|x l IH]; [destruct Hy|]. cbn. destruct Hy as [->|Hy].
  - rewrite Hf, Hg. cbn. assert (length (filter f l) <= length (filter g l)) by (apply filter_le; intros; apply H; cbn; auto). lia.
  - assert (IH' : length (filter f l) < length (filter g l)) by (apply IH; auto; intros; apply H; cbn; auto).
    destruct (f x) eqn:E; [rewrite H by (cbn; auto); cbn; lia|destruct (g x); cbn; lia].
Qed.

Lemma fe_keep_acc : forall N q, nF N q -> fe_keep N q = true.
Proof. intros N q [st [E H]]. unfold fe_keep. rewrite E, H. auto. Qed.

(** ** Vectors of pointers *)
Section Addr.
  Variable addr : nat -> nat.
  Hypothesis addr_inj : forall i j, addr i = addr j -> i = j.

  Definition asorted (l : list nat) : Prop := StronglySorted (fun i j => addr i <= addr j) l.
  Lemma addr_insert_spec : forall x l, asorted l ->
    asorted (fst (addr_insert addr x l)) /\ (forall y, In y (fst (addr_insert addr x l)) <-> y = x \/ In y l) /\
    (snd (addr_insert addr x l) = true -> ~ In x l) /\ (snd (addr_insert addr x l) = false -> In x l /\ fst (addr_insert addr x l) = l).
  Proof.
    intros x l Hs. induction Hs as [|y l Hs IH Hy]; cbn [addr_insert].
    - cbn. ands; auto; try discriminate; [repeat constructor|]. intros y; split; intros [K|[]]; auto.
    - rewrite Forall_forall in Hy. unfold addr_ltb. destruct (Nat.ltb_spec (addr y) (addr x)) as [E|E].
      + destruct IH as [I1 [I2 [I3 I4]]]. cbn. ands.
        * constructor; auto. apply Forall_forall. intros z Hz. apply I2 in Hz. destruct Hz as [->|Hz]; [lia|auto].
        * intros z. rewrite I2. intuition.
        * intros K [->|K2]; [lia|]. apply I3; auto.
        * intros K. apply I4 in K. destruct K as [K1 K2]. split; auto. rewrite K2; auto.
      + destruct (Nat.eqb_spec y x) as [->|E2]; cbn.
        * ands; auto; try discriminate. { constructor; auto. apply Forall_forall; auto. } intros z; intuition.
        * assert (addr x < addr y) by (destruct (Nat.eq_dec (addr x) (addr y)) as [K|K]; [apply addr_inj in K; congruence|lia]).
          ands; try discriminate.
          { constructor; [constructor; auto; apply Forall_forall; auto|]. apply Forall_forall. intros z [<-|Hz]; [lia|]. apply Hy in Hz. lia. }
          { intros z; intuition. }
          { intros _ [K|K]; [congruence|]. apply Hy in K. lia. }
  Qed.
  Lemma addr_ins_spec : forall x l, asorted l -> asorted (addr_ins addr x l) /\ Permutation (addr_ins addr x l) (x :: l).
  Proof.
    intros x l Hs. induction Hs as [|y l Hs IH Hy]; cbn [addr_ins].
    - split; auto. repeat constructor.
    - unfold addr_ltb. destruct (Nat.ltb_spec (addr y) (addr x)) as [E|E].
      + destruct IH as [I1 I2]. split.
        * constructor; auto. rewrite Forall_forall in *. intros z Hz. apply (Permutation_in _ I2) in Hz. destruct Hz as [<-|Hz]; [lia|auto].
        * rewrite I2. constructor.
      + split; auto. constructor; [constructor; auto|]. rewrite Forall_forall in *. intros z [<-|Hz]; auto. apply Hy in Hz. lia.
  Qed.
  Lemma addr_sort_spec : forall l, asorted (addr_sort addr l) /\ Permutation (addr_sort addr l) l.
  Proof.
    induction l as [|x l [I1 I2]]; cbn; [split; constructor|]. destruct (addr_ins_spec x _ I1) as [H1 H2]. split; auto. rewrite H2, I2. auto.
  Qed.
  Lemma asorted_is_sorted : forall l, asorted l -> is_sorted (addr_ltb addr) l = true.
  Proof.
    intros l H. induction H as [|x l H IH Hx]; auto. cbn [is_sorted]. destruct l as [|y l]; auto. rewrite IH, andb_true_r. unfold addr_ltb.
    inversion Hx; subst. destruct (Nat.ltb_spec (addr y) (addr x)); auto. lia.
  Qed.
  Lemma asorted_filter : forall f l, asorted l -> asorted (filter f l).
  Proof.
    intros f l H. induction H as [|x l H IH Hx]; cbn; [constructor|]. destruct (f x); auto. constructor; auto. rewrite Forall_forall in *. intros y Hy. apply filter_In in Hy. apply Hx, Hy.
  Qed.

  (** ** The epsilon closure *)
  Section Closure.
    Variable N : nfa.
    Hypothesis W : nfa_wf N.
    Let m := length (n_states N).
    Definition eps_to (q q' : nat) : Prop := apath (nE N) q [] q'.
    Definition estep (q q' : nat) : Prop := nE N q None q'.

    Definition unseen (sts : list nat) : nat := length (filter (fun i => negb (memb i sts)) (seq 0 m)).
    Record FE (S0 sts wait : list nat) : Prop := {
      fe_sorted : asorted sts;
      fe_range : forall s, In s sts -> s < m;
      fe_wait : incl wait sts;
      fe_init : incl S0 sts;
      fe_from : forall s, In s sts -> exists s0, In s0 S0 /\ eps_to s0 s }.
    Definition clos (sts : list nat) (s : nat) : Prop := forall s', estep s s' -> In s' sts.

    Lemma fe_edges_spec : forall S0 s es sts wait, (forall e, In e es -> ne_dst e < m /\ (ne_eps e = true -> estep s (ne_dst e))) -> FE S0 sts wait -> In s sts ->
      let p := fold_left (fe_edge addr) es (sts, wait) in
      FE S0 (fst p) (snd p) /\ incl sts (fst p) /\ (forall x, In x (fst p) -> In x sts \/ In x (snd p)) /\ incl wait (snd p) /\
      (forall e, In e es -> ne_eps e = true -> In (ne_dst e) (fst p)) /\ length (snd p) + unseen (fst p) <= length wait + unseen sts.
    Proof.
      intros S0 s es. induction es as [|e es IH]; intros sts wait He F Hs; cbn [fold_left].
      - cbn. ands; auto using incl_refl. intros e [].
      - unfold fe_edge at 2 4 6 8 10 12 14 16 18. cbn [fst snd]. destruct (ne_eps e) eqn:Ee.
        + destruct (addr_insert_spec (ne_dst e) sts (fe_sorted _ _ _ F)) as [A1 [A2 [A3 A4]]].
          destruct (addr_insert addr (ne_dst e) sts) as [sts' b] eqn:EI. cbn [fst snd] in *. destruct b.
          * assert (F': FE S0 sts' (ne_dst e :: wait)).
            { destruct F as [F1 F2 F3 F4 F5]. destruct (He e (or_introl eq_refl)) as [D1 D2]. constructor; auto.
              - intros x Hx. apply A2 in Hx. destruct Hx as [->|Hx]; auto.
              - intros x [<-|Hx]; apply A2; auto.
              - intros x Hx. apply A2; auto.
              - intros x Hx. apply A2 in Hx. destruct Hx as [->|Hx]; auto. destruct (F5 s Hs) as [s0 [Q1 Q2]]. exists s0. split; auto.
                unfold eps_to in *. rewrite <- (app_nil_r []). apply (apath_app _ _ _ s); auto. eapply ap_eps; [apply D2; auto|constructor]. }
            destruct (IH sts' (ne_dst e :: wait)) as [I1 [I2 [I3 [I4 [I5 I6]]]]]; auto.
            { intros e' H'. apply He. cbn; auto. } { apply A2; auto. }
            ands; auto.
            -- intros x Hx. apply I2, A2; auto.
            -- intros x Hx. destruct (I3 x Hx) as [K|K]; auto. apply A2 in K. destruct K as [->|K]; auto. right. apply I4. cbn; auto.
            -- intros x Hx. apply I4. cbn; auto.
            -- intros e' [<-|H'] E'; auto. apply I2, A2; auto.
            -- cbn in I6. assert (unseen sts' < unseen sts); [|lia]. unfold unseen. apply (filter_lt _ _ _ (ne_dst e)).
               ++ intros x _ Hx. apply negb_true_iff in Hx. apply negb_true_iff. destruct (memb x sts) eqn:K; auto. apply memb_In in K.
                  assert (memb x sts' = true) by (apply memb_In, A2; auto). congruence.
               ++ apply in_seq. destruct (He e (or_introl eq_refl)). lia.
               ++ apply negb_false_iff, memb_In, A2; auto.
               ++ apply negb_true_iff. destruct (memb (ne_dst e) sts) eqn:K; auto. apply memb_In in K. exfalso. apply A3; auto.
          * destruct (A4 eq_refl) as [B1 B2]. destruct (IH sts wait) as [I1 [I2 [I3 [I4 [I5 I6]]]]]; auto. { intros e' H'. apply He. cbn; auto. }
            ands; auto. intros e' [<-|H'] E'; auto.
        + destruct (IH sts wait) as [I1 [I2 [I3 [I4 [I5 I6]]]]]; auto. { intros e' H'. apply He. cbn; auto. }
          ands; auto. intros e' [<-|H'] E'; auto. congruence.
    Qed.
    Lemma fe_loop_spec : forall S0 fuel sts wait, FE S0 sts wait -> (forall s, In s sts -> In s wait \/ clos sts s) -> length wait + unseen sts <= fuel ->
      exists r, fe_loop addr N fuel sts wait = Some r /\ FE S0 r [] /\ forall s, In s r -> clos r s.
    Proof.
      intros S0. induction fuel as [|fuel IH]; intros sts wait F C Hm.
      - destruct wait; [|cbn in Hm; lia]. cbn. exists sts. ands; auto. intros s Hs. destruct (C s Hs) as [[]|K]; auto.
      - destruct wait as [|s wait]; cbn [fe_loop]. { exists sts. ands; auto. intros s Hs. destruct (C s Hs) as [[]|K]; auto. }
        assert (Hs: In s sts) by (apply (fe_wait _ _ _ F); cbn; auto). pose proof (fe_range _ _ _ F _ Hs) as Hr.
        destruct (nth_error_ex _ (n_states N) s Hr) as [st Est]. rewrite Est. cbn [obind].
        assert (F0: FE S0 sts wait). { destruct F; constructor; auto. intros x Hx. apply fe_wait0. cbn; auto. }
        destruct (fe_edges_spec S0 s (ns_edges st) sts wait) as [I1 [I2 [I3 [I4 [I5 I6]]]]]; auto.
        { intros e He. destruct (nw_dst _ W _ _ _ Est He) as [D _]. split; auto. intros Ee. exists st, e. auto. }
        apply IH; auto; [|cbn in Hm; lia].
        intros x Hx. destruct (I3 x Hx) as [K|K]; auto. destruct (C x K) as [[<-|K2]|K2].
        + right. intros s' [st' [e [E1 [E2 [<- E3]]]]]. assert (st' = st) by congruence. subst. auto.
        + left. auto.
        + right. intros s' Hs'. apply I2. auto.
    Qed.
    Lemma clos_path : forall r, (forall s, In s r -> clos r s) -> forall q q', eps_to q q' -> In q r -> In q' r.
    Proof.
      intros r Hr q q' H. unfold eps_to in H. remember [] as w. induction H as [q|q l q1 w q2 He H IH|q q1 w q2 He H IH]; subst; auto; [discriminate|].
      intros K. apply IH; auto. apply (Hr q K). exact He.
    Qed.
    Theorem follow_epsilon_spec : forall sts, asorted sts -> (forall s, In s sts -> s < m) ->
      exists r, follow_epsilon addr N sts = Some r /\ asorted r /\ forall q, In q r <-> fe_keep N q = true /\ exists s, In s sts /\ eps_to s q.
    Proof.
      intros sts Hs Hr. unfold follow_epsilon. destruct (fe_loop_spec sts (length sts + length (n_states N)) sts (rev sts)) as [r [E [F C]]].
      - constructor; auto using incl_refl. { intros s H. apply in_rev in H. auto. } intros s H. exists s. split; auto. apply ap_nil.
      - intros s H. left. rewrite <- in_rev. auto.
      - rewrite rev_length. assert (unseen sts <= m); [|unfold m in *; lia]. unfold unseen. rewrite <- (seq_length m 0) at 2.
        set (l := seq 0 m). clearbody l. induction l as [|x l IH]; cbn; auto. destruct (negb _); cbn; lia.
      - rewrite E. cbn. exists (filter (fe_keep N) r). ands; auto. { apply asorted_filter, F. }
        intros q. rewrite filter_In. split.
        + intros [H1 H2]. split; auto. apply (fe_from _ _ _ F). auto.
        + intros [H1 [s [H2 H3]]]. split; auto. apply (clos_path r C s); auto. apply (fe_init _ _ _ F); auto.
    Qed.
  End Closure.
End Addr.

(** ** The labels of an edge *)
Lemma is_sorted_spec : forall l, is_sorted Nat.ltb l = true <-> StronglySorted le l.
Proof.
  induction l as [|x l IH]; cbn [is_sorted]; [split; auto; constructor|]. destruct l as [|y l].
  - split; auto. intros _. repeat constructor.
  - rewrite andb_true_iff, IH, negb_true_iff, Nat.ltb_ge. split.
    + intros [H1 H2]. constructor; auto. inversion H2 as [|a b H3 H4]; subst. constructor; auto. rewrite Forall_forall in *. intros z Hz. apply H4 in Hz. lia.
    + intros H. inversion H as [|a b H3 H4]; subst. split; auto. inversion H4; auto.
Qed.
Lemma neg_labels_In : forall ls i max x, ssorted ls -> (forall y, In y ls -> i <= y < max) -> (In x (neg_labels i ls max) <-> i <= x < max /\ ~ In x ls).
Proof.
  induction ls as [|l ls IH]; intros i max x Hs Hi; cbn [neg_labels].
  - rewrite in_seq. cbn. lia.
  - apply ssorted_cons in Hs. destruct Hs as [Hs Hl]. assert (i <= l < max) by (apply Hi; cbn; auto). rewrite in_app_iff, in_seq, IH; auto.
    + cbn [In]. rewrite Nat.max_r by lia. split.
      * intros [K|[K1 K2]]; split; try lia; intros [E|E]; try lia; auto. apply Hl in E. lia.
      * intros [K1 K2]. destruct (lt_eq_lt_dec x l) as [[K|K]|K]; [left; lia|exfalso; apply K2; auto|right; split; [lia|tauto]].
    + intros y Hy. rewrite Nat.max_r by lia. specialize (Hl y Hy). assert (i <= y < max) by (apply Hi; cbn; auto). lia.
Qed.

Lemma add_edge_spec : forall A q l q' t, q < a_size A -> NoDup (map fst (a_edges A)) -> exists A', a_add_edge A q l q' t = Some A' /\ a_acc A' = a_acc A /\ a_ord A' = a_ord A /\ NoDup (map fst (a_edges A')) /\ forall x y z, aut_edges A' x y z <-> aut_edges A x y z \/ (x = q /\ y = l /\ z = q').
Proof.
  intros A q l q' t H Hn. unfold a_add_edge, emplace_edge. cbn [e_src]. apply Nat.ltb_lt in H. rewrite H. destruct (find_edge (mk_edge q l q') (a_edges A)) eqn:E.
  - exists A. ands; auto. intros x y z. split; auto. intros [K|[-> [-> ->]]]; auto. apply find_edge_Some in E. apply (in_map fst) in E. exact E.
  - eexists; split; [reflexivity|]. apply find_edge_None in E. ands; auto; [cbn; constructor; auto|]. intros x y z. unfold aut_edges, edges_of. cbn. split.
    + intros [K|K]; auto. inversion K; auto.
    + intros [K|[-> [-> ->]]]; auto.
Qed.
(** A loop of add_edge. *)
Definition adds (A A' : aut) (D : nat -> option nat -> nat -> Prop) : Prop :=
  a_acc A' = a_acc A /\ a_ord A' = a_ord A /\ NoDup (map fst (a_edges A')) /\ forall x y z, aut_edges A' x y z <-> aut_edges A x y z \/ D x y z.
Lemma adds_size : forall A A' D, adds A A' D -> a_size A' = a_size A.
Proof. intros A A' D [H _]. unfold a_size. rewrite H. auto. Qed.
Lemma ofold_adds : forall X (f : aut -> X -> option aut) (D : X -> nat -> option nat -> nat -> Prop) (k : nat) l A,
  (forall A x, In x l -> k <= a_size A -> NoDup (map fst (a_edges A)) -> exists A', f A x = Some A' /\ adds A A' (D x)) ->
  k <= a_size A -> NoDup (map fst (a_edges A)) ->
  exists A', ofold f l A = Some A' /\ adds A A' (fun a b c => exists x, In x l /\ D x a b c).
Proof.
  intros X f D k l. induction l as [|x l IH]; intros A Hf Hk Hn; cbn [ofold].
  - exists A. split; auto. unfold adds. ands; auto. intros a b c. split; auto. intros [K|[x [[] _]]]; auto.
  - destruct (Hf A x) as [A1 [E1 A1s]]; cbn; auto. rewrite E1. cbn. pose proof (adds_size _ _ _ A1s) as Z. destruct A1s as [B1 [B2 [B3 B4]]].
    destruct (IH A1) as [A2 [E2 [C1 [C2 [C3 C4]]]]]; [intros; apply Hf; cbn; auto|lia|auto|]. exists A2. split; auto. unfold adds. ands; try congruence.
    intros a b c. rewrite C4, B4. split.
    + intros [[K|K]|[y [K1 K2]]]; auto; right; eauto.
    + intros [K|[y [[<-|K1] K2]]]; auto. right; eauto.
Qed.
Lemma adds_iff : forall A A' D D', (forall a b c, D a b c <-> D' a b c) -> adds A A' D -> adds A A' D'.
Proof. intros A A' D D' H [B1 [B2 [B3 B4]]]. unfold adds. ands; auto. intros. rewrite B4, H. tauto. Qed.

Lemma add_edges_spec : forall P A from to (neg : bool) ls, (neg = true -> is_sorted Nat.ltb ls = true) -> from < a_size A -> NoDup (map fst (a_edges A)) ->
  exists A', add_edges P A from to neg ls = Some A' /\ adds A A' (fun a b c => a = from /\ c = to /\ exists x, b = Some x /\ In x (edge_labels P neg ls)).
Proof.
  intros P A from to neg ls Hs Hf Hn. unfold add_edges. replace (neg && negb (is_sorted Nat.ltb ls)) with false by (destruct neg; cbn; auto; rewrite Hs; auto).
  destruct (ofold_adds _ (fun A l => a_add_edge A from (Some l) to TNull) (fun x a b c => a = from /\ b = Some x /\ c = to) (a_size A) (edge_labels P neg ls) A) as [A' [E H]]; auto.
  - intros B x _ Hk Hb. destruct (add_edge_spec B from (Some x) to TNull) as [B' [E1 H1]]; auto; [lia|]. exists B'. split; auto.
  - exists A'. split; auto. eapply adds_iff; [|exact H]. cbn. intros a b c. split; intros K.
    + destruct K as [x [K1 [-> [-> ->]]]]. ands; eauto.
    + destruct K as [-> [-> [x [-> K]]]]. eauto.
Qed.
Lemma add_edges_from_spec : forall P A froms to (neg : bool) ls, (neg = true -> is_sorted Nat.ltb ls = true) -> (forall f, In f froms -> f < a_size A) -> NoDup (map fst (a_edges A)) ->
  exists A', add_edges_from P A froms to neg ls = Some A' /\ adds A A' (fun a b c => In a froms /\ c = to /\ exists x, b = Some x /\ In x (edge_labels P neg ls)).
Proof.
  intros P A froms to neg ls Hs Hf Hn. unfold add_edges_from. replace (neg && negb (is_sorted Nat.ltb ls)) with false by (destruct neg; cbn; auto; rewrite Hs; auto). destruct neg.
  - destruct (ofold_adds _ (fun A l => ofold (fun A f => a_add_edge A f (Some l) to TNull) froms A)
      (fun x a b c => exists f, In f froms /\ a = f /\ b = Some x /\ c = to) (a_size A) (edge_labels P true ls) A) as [A' [E H]]; auto.
    + intros B x _ Hk Hb. destruct (ofold_adds _ (fun A f => a_add_edge A f (Some x) to TNull) (fun f a b c => a = f /\ b = Some x /\ c = to) (a_size B) froms B) as [B' [E1 H1]]; eauto.
      intros C f HF Hk' Hc. destruct (add_edge_spec C f (Some x) to TNull) as [C' [E2 H2]]; auto; [|exists C'; split; auto]. specialize (Hf f HF). lia.
    + exists A'. split; auto. eapply adds_iff; [|exact H]. cbn. intros a b c. split; intros K.
      * destruct K as [x [K1 [f [K2 [-> [-> ->]]]]]]. ands; eauto.
      * destruct K as [K1 [-> [x [-> K]]]]. exists x. split; eauto.
  - destruct (ofold_adds _ (fun A f => ofold (fun A l => a_add_edge A f (Some l) to TNull) ls A)
      (fun f a b c => exists x, In x ls /\ a = f /\ b = Some x /\ c = to) (a_size A) froms A) as [A' [E H]]; auto.
    + intros B f HF Hk Hb. destruct (ofold_adds _ (fun A l => a_add_edge A f (Some l) to TNull) (fun x a b c => a = f /\ b = Some x /\ c = to) (a_size B) ls B) as [B' [E1 H1]]; eauto.
      intros C x _ Hk' Hc. destruct (add_edge_spec C f (Some x) to TNull) as [C' [E2 H2]]; auto; [|exists C'; split; auto]. specialize (Hf f HF). lia.
    + exists A'. split; auto. eapply adds_iff; [|exact H]. cbn. intros a b c. split; intros K.
      * destruct K as [f [K1 [x [K2 [-> [-> ->]]]]]]. ands; eauto.
      * destruct K as [K1 [-> [x [-> K]]]]. exists a. split; eauto.
Qed.

(** ** construct *)
Lemma co_find_Some : forall n l i, co_find n l = Some i -> In (n, i) l.
Proof. intros n l i. induction l as [|[k v] l IH]; cbn; [discriminate|]. destruct (Nat.eqb_spec k n) as [->|E]; intros H; [injection H as ->; auto|auto]. Qed.
Lemma co_find_None : forall n l, co_find n l = None -> ~ In n (map fst l).
Proof. intros n l. induction l as [|[k v] l IH]; cbn; [auto|]. destruct (Nat.eqb_spec k n) as [->|E]; [discriminate|]. intros H [K|K]; [congruence|]. apply IH; auto. Qed.

Section Construct.
  Variable addr : nat -> nat.
  Hypothesis addr_inj : forall i j, addr i = addr j -> i = j.
  Variable P : pda.
  Variable N : nfa.
  Hypothesis W : nfa_wf N.
  Variable map_edge : nedge -> list nat.
  Variable states : list nat.
  Variable A0 : aut.
  Let n0 := a_size A0.
  Definition elabs (e : nedge) : list nat := edge_labels P (ne_neg e) (map_edge e).
  Definition nfa_edge (q : nat) (e : nedge) : Prop := exists st, nth_error (n_states N) q = Some st /\ In e (ns_edges st).
  Hypothesis states_lt : forall s, In s states -> s < n0.
  Hypothesis elabs_sorted : forall q e, nfa_edge q e -> ne_neg e = true -> is_sorted Nat.ltb (map_edge e) = true.
  Hypothesis A0_edges : a_edges A0 = [].

  Definition kedge (q x q' : nat) : Prop := exists e, nfa_edge q e /\ In x (elabs e) /\ fe_keep N q' = true /\ eps_to N (ne_dst e) q'.
  Notation edge_in c := (aut_edges (co_aut c)).

  Record CI (c : cons_st) : Prop := {
    ci_size : a_size (co_aut c) = n0 + length (co_map c);
    ci_acc0 : forall q, q < n0 -> nth_error (a_acc (co_aut c)) q = nth_error (a_acc A0) q;
    ci_map : forall n i, In (n, i) (co_map c) -> n < length (n_states N) /\ n0 <= i < a_size (co_aut c) /\
               exists st, nth_error (n_states N) n = Some st /\ nth_error (a_acc (co_aut c)) i = Some (ns_acc st);
    ci_keys : NoDup (map fst (co_map c));
    ci_vals : NoDup (map snd (co_map c));
    ci_wait : incl (co_wait c) (co_map c);
    ci_nd : NoDup (map fst (a_edges (co_aut c)));
    ci_ord : a_ord (co_aut c) = a_ord A0;
    ci_sound : forall f l t, edge_in c f l t -> exists x n', l = Some x /\ In (n', t) (co_map c) /\
                 ((In f states /\ exists i, In i (n_init N) /\ kedge i x n') \/ exists n, In (n, f) (co_map c) /\ kedge n x n') }.
  Record Ext (c c' : cons_st) : Prop := {
    ex_map : exists new, co_map c' = new ++ co_map c /\ co_wait c' = new ++ co_wait c;
    ex_edges : forall f l t, edge_in c f l t -> edge_in c' f l t }.
  Lemma Ext_refl : forall c, Ext c c.
  Proof. intros c. constructor; auto. exists []. auto. Qed.
  Lemma Ext_trans : forall a b c, Ext a b -> Ext b c -> Ext a c.
  Proof.
    intros a b c [[n1 [H1 H2]] H3] [[n2 [H4 H5]] H6]. constructor; auto. exists (n2 ++ n1). rewrite H4, H5, H1, H2, !app_assoc. auto.
  Qed.
  Lemma Ext_in : forall a b x, Ext a b -> In x (co_map a) -> In x (co_map b).
  Proof. intros a b x [[n1 [H1 H2]] H3] H. rewrite H1. apply in_or_app; auto. Qed.
  Lemma Ext_size : forall a b, CI a -> CI b -> Ext a b -> a_size (co_aut a) <= a_size (co_aut b).
  Proof. intros a b Ha Hb [[n1 [H1 H2]] H3]. rewrite (ci_size _ Ha), (ci_size _ Hb), H1, app_length. lia. Qed.

  Lemma get_id_spec : forall c n, CI c -> n < length (n_states N) -> exists c' i, get_id N c n = Some (c', i) /\ CI c' /\ Ext c c' /\ In (n, i) (co_map c') /\
    (forall f l t, edge_in c' f l t <-> edge_in c f l t).
  Proof.
    intros c n C Hn. unfold get_id. destruct (co_find n (co_map c)) as [i|] eqn:E.
    - exists c, i. ands; auto; [apply Ext_refl|apply co_find_Some; auto|tauto].
    - destruct (nth_error_ex _ _ _ Hn) as [st Est]. rewrite Est. cbn [obind]. eexists _, _. split; [reflexivity|].
      apply co_find_None in E. destruct C as [C1 C2 C3 C4 C5 C6 C7 C8 C9]. ands.
      + constructor; cbn [co_aut co_map co_wait a_add_state a_acc a_edges a_ord]; auto.
        * unfold a_size in *. cbn. rewrite app_length, C1. cbn. lia.
        * intros q Hq. rewrite nth_error_app1; auto. unfold a_size in C1. lia.
        * assert (Z: a_size (a_add_state (co_aut c) (ns_acc st)) = S (a_size (co_aut c))) by (unfold a_size; cbn; rewrite app_length; cbn; lia).
          intros k i [K|K].
          -- inversion K; subst. ands; auto; try lia. exists st. split; auto. unfold a_size. rewrite nth_error_app2, Nat.sub_diag; auto.
          -- destruct (C3 k i K) as [K1 [K2 [st' [K3 K4]]]]. ands; auto; try lia. exists st'. split; auto. rewrite nth_error_app1; auto. apply K2.
        * cbn. constructor; auto.
        * cbn. constructor; auto. intros K. apply in_map_iff in K. destruct K as [[k i] [K1 K2]]. cbn in K1. subst i. apply C3 in K2. lia.
        * intros x [<-|Hx]; cbn; auto.
        * intros f l t H. destruct (C9 f l t H) as [x [n' [K1 [K2 K3]]]]. exists x, n'. ands; cbn; auto. destruct K3 as [K3|[k [K3 K4]]]; auto. right. exists k. split; cbn; auto.
      + constructor; cbn; auto. exists [(n, a_size (co_aut c))]. auto.
      + cbn. auto.
      + intros f l t. cbn. unfold aut_edges. cbn. tauto.
  Qed.

  Definition add_ok (Fs : list nat) (add : aut -> nat -> nedge -> option aut) (e : nedge) : Prop :=
    forall A to, (forall f, In f Fs -> f < a_size A) -> NoDup (map fst (a_edges A)) ->
    exists A', add A to e = Some A' /\ adds A A' (fun a b c => In a Fs /\ c = to /\ exists x, b = Some x /\ In x (elabs e)).

  (** The sources of the edges that are added while the edges of the NFA state [q] are processed. *)
  Definition src_ok (c : cons_st) (Fs : list nat) (q : nat) : Prop :=
    (In q (n_init N) /\ Fs = states) \/ exists i, Fs = [i] /\ In (q, i) (co_map c).
  Lemma src_ok_ext : forall c c' Fs q, Ext c c' -> src_ok c Fs q -> src_ok c' Fs q.
  Proof. intros c c' Fs q H [K|[i [K1 K2]]]; [left; auto|right]. exists i. split; auto. eapply Ext_in; eauto. Qed.
  Lemma src_ok_lt : forall c Fs q, CI c -> src_ok c Fs q -> forall f, In f Fs -> f < a_size (co_aut c).
  Proof.
    intros c Fs q C [[_ ->]|[i [-> K]]] f Hf.
    - apply states_lt in Hf. rewrite (ci_size _ C). lia.
    - destruct Hf as [<-|[]]. apply (ci_map _ C) in K. apply K.
  Qed.

  Lemma co_targets_spec : forall q e Fs add, nfa_edge q e -> add_ok Fs add e -> forall ns c, CI c -> src_ok c Fs q ->
    (forall n, In n ns -> fe_keep N n = true /\ eps_to N (ne_dst e) n /\ n < length (n_states N)) ->
    exists c', ofold (fun c n => ci <- get_id N c n ;; A <- add (co_aut (fst ci)) (snd ci) e ;; Some (co_set (fst ci) A)) ns c = Some c' /\ CI c' /\ Ext c c' /\
      forall n x f, In n ns -> In x (elabs e) -> In f Fs -> exists t, In (n, t) (co_map c') /\ edge_in c' f (Some x) t.
  Proof.
    intros q e Fs add He Ha. induction ns as [|n ns IH]; intros c C Hs Hn; cbn [ofold].
    - exists c. ands; auto; [apply Ext_refl|]. intros n x f [].
    - destruct (Hn n (or_introl eq_refl)) as [K1 [K2 K3]]. destruct (get_id_spec c n C K3) as [c1 [i [E1 [C1 [X1 [I1 G1]]]]]]. rewrite E1. cbn [obind fst snd].
      pose proof (src_ok_ext _ _ _ _ X1 Hs) as Hs1.
      destruct (Ha (co_aut c1) i) as [A1 [E2 AD]]; [eapply src_ok_lt; eauto|apply C1|]. rewrite E2. cbn [obind].
      pose proof (adds_size _ _ _ AD) as ZA. destruct AD as [D1 [D2 [D3 D4]]].
      assert (C2: CI (co_set c1 A1)).
      { destruct C1 as [Q1 Q2 Q3 Q4 Q5 Q6 Q7 Q8 Q9]. constructor; cbn [co_set co_aut co_map co_wait]; auto; try congruence.
        - intros p Hp. rewrite D1. auto.
        - intros k j K. destruct (Q3 k j K) as [R1 [R2 [st [R3 R4]]]]. rewrite ZA, D1. ands; auto; try lia. exists st. auto.
        - intros f l t H. apply D4 in H. destruct H as [H|[H1 [-> [x [-> H2]]]]]; [apply Q9 in H; auto|].
          exists x, n. ands; auto. assert (KE: kedge q x n) by (exists e; auto). destruct Hs1 as [[Hq ->]|[j [-> Hj]]]; [left; split; eauto|right].
          destruct H1 as [<-|[]]. exists q. auto. }
      assert (X2: Ext c1 (co_set c1 A1)). { constructor; [exists []; auto|]. intros f l t H. cbn. apply D4. auto. }
      destruct (IH (co_set c1 A1) C2) as [c' [E' [C' [X' G']]]].
      { eapply src_ok_ext; [|exact Hs]. eapply Ext_trans; eauto. } { intros k Hk. apply Hn. cbn; auto. }
      rewrite E'. exists c'. ands; auto; [eapply Ext_trans; [exact X1|eapply Ext_trans; eauto]|].
      intros k x f [<-|Hk] Hx Hf; auto. exists i. split; [apply (Ext_in _ _ _ X'); exact I1|]. apply (ex_edges _ _ X'). cbn. apply D4. right. ands; eauto.
  Qed.
  Lemma nfa_edge_dst : forall q e, nfa_edge q e -> ne_dst e < length (n_states N).
  Proof. intros q e [st [H1 H2]]. eapply nw_dst; eauto. Qed.
  Lemma eps_to_lt : forall q q', eps_to N q q' -> q < length (n_states N) -> q' < length (n_states N).
  Proof. intros q q' H. eapply nE_path_lt; eauto. Qed.
  Lemma co_edge_spec : forall q e Fs add c, nfa_edge q e -> add_ok Fs add e -> CI c -> src_ok c Fs q ->
    exists c', co_edge addr N add c e = Some c' /\ CI c' /\ Ext c c' /\
      forall n x f, fe_keep N n = true -> eps_to N (ne_dst e) n -> In x (elabs e) -> In f Fs -> exists t, In (n, t) (co_map c') /\ edge_in c' f (Some x) t.
  Proof.
    intros q e Fs add c He Ha C Hs. unfold co_edge. pose proof (nfa_edge_dst _ _ He) as Hd.
    destruct (follow_epsilon_spec addr addr_inj N W [ne_dst e]) as [r [E [_ Hr]]]. { repeat constructor. } { intros s [<-|[]]; auto. }
    rewrite E. cbn [obind]. destruct (co_targets_spec q e Fs add He Ha r c C Hs) as [c' [E' [C' [X' G']]]].
    { intros n Hn. apply Hr in Hn. destruct Hn as [H1 [s [[<-|[]] H2]]]. ands; auto. eapply eps_to_lt; eauto. }
    exists c'. ands; auto. intros n x f H1 H2 H3 H4. apply G'; auto. apply Hr. split; auto. exists (ne_dst e). cbn; auto.
  Qed.
  Lemma co_edges_spec : forall q Fs add es c, (forall e, In e es -> nfa_edge q e /\ add_ok Fs add e) -> CI c -> src_ok c Fs q ->
    exists c', ofold (co_edge addr N add) es c = Some c' /\ CI c' /\ Ext c c' /\
      forall e n x f, In e es -> fe_keep N n = true -> eps_to N (ne_dst e) n -> In x (elabs e) -> In f Fs -> exists t, In (n, t) (co_map c') /\ edge_in c' f (Some x) t.
  Proof.
    intros q Fs add. induction es as [|e es IH]; intros c He C Hs; cbn [ofold].
    - exists c. ands; auto; [apply Ext_refl|]. intros e n x f [].
    - destruct (He e (or_introl eq_refl)) as [H1 H2]. destruct (co_edge_spec q e Fs add c H1 H2 C Hs) as [c1 [E1 [C1 [X1 G1]]]]. rewrite E1. cbn [obind].
      destruct (IH c1) as [c2 [E2 [C2 [X2 G2]]]]; auto. { intros e' H'. apply He; cbn; auto. } { eapply src_ok_ext; eauto. }
      exists c2. ands; auto; [eapply Ext_trans; eauto|]. intros e' n x f [<-|H'] K1 K2 K3 K4; eauto.
      destruct (G1 n x f K1 K2 K3 K4) as [t [T1 T2]]. exists t. split; [eapply Ext_in; eauto|apply (ex_edges _ _ X2); auto].
  Qed.

  Definition done_from (c : cons_st) (Fs : list nat) (q : nat) : Prop :=
    forall x n f, kedge q x n -> In f Fs -> exists t, In (n, t) (co_map c) /\ edge_in c f (Some x) t.
  Lemma done_ext : forall c c' Fs q, Ext c c' -> done_from c Fs q -> done_from c' Fs q.
  Proof. intros c c' Fs q X H x n f K Hf. destruct (H x n f K Hf) as [t [T1 T2]]. exists t. split; [eapply Ext_in; eauto|apply (ex_edges _ _ X); auto]. Qed.
  Lemma co_state_spec : forall q st Fs add c, nth_error (n_states N) q = Some st -> (forall e, nfa_edge q e -> add_ok Fs add e) -> CI c -> src_ok c Fs q ->
    exists c', ofold (co_edge addr N add) (ns_edges st) c = Some c' /\ CI c' /\ Ext c c' /\ done_from c' Fs q.
  Proof.
    intros q st Fs add c Est Ha C Hs. destruct (co_edges_spec q Fs add (ns_edges st) c) as [c' [E [C' [X G]]]]; auto.
    { intros e He. assert (nfa_edge q e) by (exists st; auto). auto. }
    exists c'. ands; auto. intros x n f [e [[st' [E1 E2]] [K2 [K3 K4]]]] Hf. assert (st' = st) by congruence. subst. eauto.
  Qed.
  Lemma co_initial_spec : forall l c, incl l (n_init N) -> CI c ->
    exists c', ofold (fun c i => st <- nth_error (n_states N) i ;; ofold (co_edge addr N (fun A to e => add_edges_from P A states to (ne_neg e) (map_edge e))) (ns_edges st) c) l c = Some c' /\
      CI c' /\ Ext c c' /\ forall i, In i l -> done_from c' states i.
  Proof.
    induction l as [|i l IH]; intros c Hl C; cbn [ofold].
    - exists c. ands; auto; [apply Ext_refl|]. intros i [].
    - assert (Hi: In i (n_init N)) by (apply Hl; cbn; auto). destruct (nth_error_ex _ _ _ (nw_init _ W i Hi)) as [st Est]. rewrite Est. cbn [obind].
      destruct (co_state_spec i st states (fun A to e => add_edges_from P A states to (ne_neg e) (map_edge e)) c) as [c1 [E1 [C1 [X1 G1]]]]; auto.
      { intros e He A to H1 H2. apply add_edges_from_spec; auto. intros K. eapply elabs_sorted; eauto. } { left; auto. }
      rewrite E1. cbn [obind]. destruct (IH c1) as [c2 [E2 [C2 [X2 G2]]]]; auto. { intros x Hx. apply Hl. cbn; auto. }
      exists c2. ands; auto; [eapply Ext_trans; eauto|]. intros j [<-|Hj]; auto. eapply done_ext; eauto.
  Qed.
  Definition unmapped (c : cons_st) : nat := length (n_states N) - length (co_map c).
  Lemma map_length_le : forall c, CI c -> length (co_map c) <= length (n_states N).
  Proof.
    intros c C. rewrite <- (map_length fst), <- (seq_length (length (n_states N)) 0). apply NoDup_incl_length; [apply C|].
    intros x Hx. apply in_map_iff in Hx. destruct Hx as [[k i] [<- K]]. apply (ci_map _ C) in K. apply in_seq. cbn. lia.
  Qed.
  Lemma co_loop_spec : forall fuel c, CI c -> (forall n i, In (n, i) (co_map c) -> In (n, i) (co_wait c) \/ done_from c [i] n) -> length (co_wait c) + unmapped c <= fuel ->
    exists c', co_loop addr P N map_edge fuel c = Some c' /\ CI c' /\ (exists new, co_map c' = new ++ co_map c) /\ (forall f l t, edge_in c f l t -> edge_in c' f l t) /\
      forall n i, In (n, i) (co_map c') -> done_from c' [i] n.
  Proof.
    induction fuel as [|fuel IH]; intros c C HD Hf; cbn [co_loop].
    - destruct (co_wait c) as [|[top id] w] eqn:Ew; [|cbn in Hf; lia]. exists c. ands; auto; [exists []; auto|]. intros n i H. destruct (HD n i H) as [[]|K]; auto.
    - destruct (co_wait c) as [|[top id] w] eqn:Ew. { exists c. ands; auto; [exists []; auto|]. intros n i H. destruct (HD n i H) as [[]|K]; auto. }
      assert (Ht: In (top, id) (co_map c)) by (apply (ci_wait _ C); rewrite Ew; cbn; auto). destruct (ci_map _ C _ _ Ht) as [T1 [T2 [st [T3 T4]]]]. rewrite T3. cbn [obind].
      set (c0 := mk_cons (co_aut c) (co_map c) w). assert (C0: CI c0). { destruct C; constructor; auto. cbn. intros x Hx. apply ci_wait0. rewrite Ew. cbn; auto. }
      destruct (co_state_spec top st [id] (fun A to e => add_edges P A id to (ne_neg e) (map_edge e)) c0) as [c1 [E1 [C1 [X1 G1]]]]; auto.
      { intros e He A to H1 H2. destruct (add_edges_spec P A id to (ne_neg e) (map_edge e)) as [A' [EA HA]]; auto; [intros K; eapply elabs_sorted; eauto|apply H1; cbn; auto|].
        exists A'. split; auto. eapply adds_iff; [|exact HA]. cbn. intros a b d. split; intros K; [destruct K as [-> K]|destruct K as [[<-|[]] K]]; auto. }
      { right. exists id. auto. }
      rewrite E1. cbn [obind]. destruct X1 as [[new [M1 M2]] M3]. cbn [c0 co_map co_wait] in M1, M2.
      destruct (IH c1) as [c2 [E2 [C2 [[new2 X2] [Y2 G2]]]]]; auto.
      { intros n i H. rewrite M1 in H. apply in_app_or in H. destruct H as [H|H]; [left; rewrite M2; apply in_or_app; auto|].
        destruct (HD n i H) as [K|K].
        - destruct K as [K|K]; [inversion K; subst; right; auto|left; rewrite M2; apply in_or_app; auto].
        - right. intros x k f KE KF. destruct (K x k f KE KF) as [t [T5 T6]]. exists t. split; [rewrite M1; apply in_or_app; auto|]. apply M3. exact T6. }
      { pose proof (map_length_le c1 C1) as L. unfold unmapped in *. rewrite M1, M2 in *. rewrite !app_length in *. cbn in Hf. lia. }
      exists c2. ands; auto. exists (new2 ++ new). rewrite X2, M1, app_assoc. auto.
  Qed.

  (** The automaton built by construct. *)
  Theorem construct_spec : NoDup (map fst (a_edges A0)) -> exists c, construct addr P N map_edge states A0 = Some (co_aut c) /\ CI c /\
    (forall i, In i (n_init N) -> done_from c states i) /\ (forall n i, In (n, i) (co_map c) -> done_from c [i] n).
  Proof.
    intros Hn. unfold construct, co_initial. assert (C0: CI (mk_cons A0 [] [])).
    { constructor; cbn; auto using incl_refl; try constructor; try tauto. intros f l t H. unfold aut_edges, edges_of in H. rewrite A0_edges in H. destruct H. }
    destruct (co_initial_spec (n_init N) (mk_cons A0 [] []) (incl_refl _) C0) as [c1 [E1 [C1 [X1 G1]]]]. rewrite E1. cbn [obind].
    destruct (co_loop_spec (length (n_states N)) c1 C1) as [c2 [E2 [C2 [[new X2] [Y2 G2]]]]].
    { intros n i H. left. destruct (ex_map _ _ X1) as [nw [M1 M2]]. cbn in M1, M2. rewrite M2, <- M1. auto. }
    { destruct (ex_map _ _ X1) as [nw [M1 M2]]. cbn in M1, M2. pose proof (map_length_le c1 C1) as L. unfold unmapped. rewrite M1, M2, app_nil_r in *. lia. }
    rewrite E2. cbn [obind]. exists c2. ands; auto.
    intros i Hi x n f K1 K2. destruct (G1 i Hi x n f K1 K2) as [t [T1 T2]]. exists t. split; auto. rewrite X2. apply in_or_app; auto.
  Qed.
End Construct.

(** ** The language of the constructed automaton *)
Section Lang.
  Variable P : pda.
  Variable N : nfa.
  Variable map_edge : nedge -> list nat.
  Hypothesis map_nil : forall e, ne_sym e = [] -> map_edge e = [].
  (** The graph of the NFA with the symbols of every edge replaced. *)
  Definition mE : edgeset := fun q l q' => exists e, nfa_edge N q e /\ ne_dst e = q' /\ match l with None => ne_eps e = true | Some x => In x (elabs P map_edge e) end.
  Notation kE := (kedge P N map_edge).

  Inductive kpath : nat -> list nat -> nat -> Prop :=
  | kp_nil : forall q, kpath q [] q
  | kp_cons : forall q x q1 w q2, kE q x q1 -> kpath q1 w q2 -> kpath q (x :: w) q2.
  Lemma eps_mE : forall q q', eps_to N q q' -> apath mE q [] q'.
  Proof.
    intros q q' H. unfold eps_to in H. remember [] as w. induction H as [q|q l q1 w q2 He H IH|q q1 w q2 He H IH]; subst; [constructor|discriminate|].
    destruct He as [st [e [H1 [H2 [H3 H4]]]]]. eapply ap_eps; [|apply IH; auto]. exists e. ands; auto. exists st; auto.
  Qed.
  Lemma kpath_sound : forall q w q', kpath q w q' -> apath mE q w q'.
  Proof.
    intros q w q' H. induction H as [|q x q1 w q2 [e [H1 [H2 [H3 H4]]]] H IH]; [constructor|]. apply ap_lab with (ne_dst e); [exists e; auto|].
    apply (apath_app _ _ [] q1 w q2); auto. apply eps_mE; auto.
  Qed.
  Lemma keep_edge : forall q e x, nfa_edge N q e -> In x (elabs P map_edge e) -> fe_keep N q = true.
  Proof.
    intros q e x [st [E H]] Hx. unfold fe_keep. rewrite E. apply orb_true_iff. right. unfold has_non_epsilon. apply existsb_exists. exists e. split; auto.
    unfold elabs, edge_labels in Hx. destruct (ne_neg e); auto. cbn. destruct (ne_sym e) eqn:K; auto. rewrite map_nil in Hx; auto.
  Qed.
  Lemma kpath_complete : forall q w f, apath mE q w f -> nF N f -> exists q1, eps_to N q q1 /\ fe_keep N q1 = true /\ kpath q1 w f.
  Proof.
    intros q w f H Hf. induction H as [q|q l q1 w q2 [e [H1 [<- H3]]] H IH|q q1 w q2 [e [H1 [<- H3]]] H IH].
    - exists q. ands; [constructor|apply fe_keep_acc; auto|constructor].
    - destruct (IH Hf) as [q' [I1 [I2 I3]]]. exists q. ands; [constructor|eapply keep_edge; eauto|]. econstructor; eauto. exists e. auto.
    - destruct (IH Hf) as [q' [I1 [I2 I3]]]. exists q'. ands; auto. destruct H1 as [st [E1 E2]]. eapply ap_eps; [|exact I1]. exists st, e. auto.
  Qed.
End Lang.

(** Compiled: the initial states are sorted and closed under epsilon edges. *)
Definition compiled (addr : nat -> nat) (N : nfa) : Prop :=
  asorted addr (n_init N) /\ forall i q, In i (n_init N) -> eps_to N i q -> fe_keep N q = true -> In q (n_init N).

Theorem nfa_compile_spec : forall addr N, (forall i j, addr i = addr j -> i = j) -> nfa_wf N ->
  exists N', nfa_compile addr N = Some N' /\ nfa_wf N' /\ compiled addr N' /\ n_states N' = n_states N /\ forall w, nfa_lang N' w <-> nfa_lang N w.
Proof.
  intros addr N Hi W. unfold nfa_compile. destruct (addr_sort_spec addr (n_init N)) as [S1 S2].
  destruct (follow_epsilon_spec addr Hi N W (addr_sort addr (n_init N)) S1) as [r [E [R1 R2]]]. { intros s Hs. apply (Permutation_in _ S2) in Hs. apply (nw_init _ W); auto. }
  rewrite E. cbn [obind]. eexists. split; [reflexivity|]. ands; auto.
  - constructor; cbn.
    + apply W.
    + intros i K. apply R2 in K. destruct K as [_ [s [K1 K2]]]. apply (Permutation_in _ S2) in K1. apply (nE_path_lt N s [] i W K2). apply (nw_init _ W); auto.
    + intros q. rewrite <- (nw_accs _ W q). destruct (addr_sort_spec addr (n_accs N)) as [_ S3]. split; intros K; [apply (Permutation_in _ S3); auto|apply (Permutation_in _ (Permutation_sym S3)); auto].
  - split; auto. cbn [n_init]. intros i q H1 H2 H3. apply R2. split; auto. apply R2 in H1. destruct H1 as [_ [s [H4 H5]]]. exists s. split; auto.
    unfold eps_to in *. rewrite <- (app_nil_r []). eapply apath_app; eauto.
  - intros w. unfold nfa_lang. cbn. split.
    + intros [i [f [H1 [H2 H3]]]]. apply R2 in H1. destruct H1 as [_ [s [H4 H5]]]. exists s, f. ands; auto; [apply (Permutation_in _ S2); auto|].
      apply (apath_app _ s [] i w f); auto.
    + intros [i [f [H1 [H2 H3]]]]. apply (Permutation_in _ (Permutation_sym S2)) in H1.
      assert (K: exists q1, eps_to N i q1 /\ fe_keep N q1 = true /\ apath (sts_edges (n_states N)) q1 w f).
      { clear H1. induction H2 as [q|q l q1 w q2 He H IH|q q1 w q2 He H IH].
        - exists q. ands; [constructor|apply fe_keep_acc; auto|constructor].
        - exists q. ands; [constructor| |econstructor; eauto]. destruct He as [st [e [K1 [K2 [K3 K4]]]]]. unfold fe_keep. rewrite K1. apply orb_true_iff. right.
          apply existsb_exists. exists e. split; auto. unfold sym_ok in K4. destruct (ne_neg e); auto. cbn. destruct (ne_sym e); auto.
        - destruct (IH H3) as [q' [I1 [I2 I3]]]. exists q'. ands; auto. eapply ap_eps; eauto. }
      destruct K as [q1 [K1 [K2 K3]]]. exists q1, f. ands; auto. apply R2. split; auto. exists i. auto.
Qed.

(** ** The constructor from an NFA *)
Lemma special_acc_nth : forall cnt i sp acc j, ssorted sp -> (forall s, In s sp -> i <= s) -> j < cnt -> nth_error (special_acc cnt i sp acc) j = Some (acc && memb (i + j) sp).
Proof.
  induction cnt as [|cnt IH]; intros i sp acc j Hs Hi Hj; [lia|]. cbn [special_acc]. destruct sp as [|s sp].
  - destruct j as [|j]; cbn; [rewrite andb_false_r; auto|]. rewrite (IH (S i) [] acc j); [cbn; rewrite andb_false_r; auto|constructor|intros s []|lia].
  - apply ssorted_cons in Hs. destruct Hs as [Hs Hl]. assert (i <= s) by (apply Hi; cbn; auto). destruct (Nat.eqb_spec s i) as [->|E].
    + destruct j as [|j]; cbn [nth_error].
      * rewrite Nat.add_0_r. cbn. rewrite Nat.eqb_refl. cbn. rewrite andb_true_r. auto.
      * rewrite (IH (S i) sp acc j); auto; [|lia]. do 2 f_equal. cbn. rewrite <- plus_n_Sm. destruct (Nat.eqb_spec (S (i + j)) i); [lia|auto].
    + destruct j as [|j]; cbn [nth_error].
      * rewrite Nat.add_0_r. cbn. destruct (Nat.eqb_spec i s); [lia|]. destruct (memb i sp) eqn:K; [apply memb_In in K; specialize (Hl i K); lia|]. cbn. rewrite andb_false_r. auto.
      * rewrite (IH (S i) (s :: sp) acc j); auto; [rewrite <- plus_n_Sm; auto|apply ssorted_cons; auto| |lia]. intros x [<-|Hx]; [lia|]. specialize (Hl x Hx). lia.
Qed.
Lemma special_acc_length : forall cnt i sp acc, length (special_acc cnt i sp acc) = cnt.
Proof. induction cnt as [|cnt IH]; intros; cbn; auto. destruct sp as [|s sp]; [|destruct (Nat.eqb s i)]; cbn; rewrite IH; auto. Qed.
Lemma ssorted_le : forall l, ssorted l -> StronglySorted le l.
Proof. intros l H. induction H as [|x l H IH Hx]; constructor; auto. rewrite Forall_forall in *. intros y Hy. specialize (Hx y Hy). lia. Qed.

Definition nfa_syms_lt (N : nfa) (n : nat) : Prop := forall q e x, nfa_edge N q e -> In x (ne_sym e) -> x < n.

Lemma elabs_sym : forall P N q e x, nfa_wf N -> nfa_syms_lt N (pd_nlab P) -> nfa_edge N q e -> (In x (elabs P ne_sym e) <-> sym_ok e x /\ x < pd_nlab P).
Proof.
  intros P N q e x W Hs He. pose proof He as [st [E1 E2]]. destruct (nw_dst _ W _ _ _ E1 E2) as [_ Hso]. unfold elabs, edge_labels, sym_ok. destruct (ne_neg e).
  - rewrite neg_labels_In; auto; [|intros y Hy; specialize (Hs q e y He Hy); lia]. split; intros [K1 K2]; split; auto; lia.
  - split; [intros K; split; auto; eapply Hs; eauto|tauto].
Qed.

(** General form: [map_edge] is any encoding of the symbols. *)
Theorem aut_of_nfa_mapped : forall addr P ord N map_edge states, (forall i j, addr i = addr j -> i = j) -> nfa_wf N -> compiled addr N ->
  (forall e, ne_sym e = [] -> map_edge e = []) -> (forall q e, nfa_edge N q e -> ne_neg e = true -> is_sorted Nat.ltb (map_edge e) = true) ->
  (forall q e x, nfa_edge N q e -> In x (elabs P map_edge e) -> x < pd_nlab P) ->
  (forall q l, Permutation (ord q l) l) -> ssorted states -> (forall s, In s states -> s < pd_n P) ->
  exists A, aut_of_nfa addr P ord N map_edge states = Some A /\ post_ok P A /\
    forall q w, aut_lang (pd_n P) A (q, w) <-> In q states /\ exists i f, In i (n_init N) /\ apath (mE P N map_edge) i w f /\ nF N f.
Proof.
  intros addr P ord N map_edge states Hinj W [Hcs Hcc] Hnil Hsort Hlab Hord Hss Hst. unfold aut_of_nfa, empty_accept.
  rewrite (asorted_is_sorted addr _ Hcs). cbn [obind]. set (b := existsb _ _). unfold aut_special.
  assert (Es: is_sorted Nat.ltb states = true) by (apply is_sorted_spec, ssorted_le; auto). rewrite Es. cbn [obind].
  set (A0 := mk_aut (special_acc (pd_n P) 0 states b) [] ord).
  assert (Z0: a_size A0 = pd_n P) by (unfold a_size; cbn; apply special_acc_length).
  destruct (construct_spec addr Hinj P N W map_edge states A0) as [c [E [C [D1 D2]]]]; auto.
  { intros s Hs. rewrite Z0; auto. } { constructor. }
  exists (co_aut c). split; auto. pose proof C as [C1 C2 C3 C4 C5 C6 C7 C8 C9]. rewrite Z0 in *.
  assert (PO: post_ok P (co_aut c)).
  { constructor; auto; [lia|intros q l; rewrite C8; apply Hord|]. intros q l q' H. destruct (C9 q l q' H) as [x [n' [-> [K2 K3]]]]. destruct (C3 _ _ K2) as [_ [K4 _]].
    assert (KE: exists n, kedge P N map_edge n x n') by (destruct K3 as [[_ [i [_ K]]]|[n [_ K]]]; eauto). destruct KE as [n [e [KE1 [KE2 _]]]].
    ands; try lia; [|exists x; split; eauto]. destruct K3 as [[K _]|[m [K _]]]; [apply Hst in K; lia|apply C3 in K; lia]. }
  split; auto.
  (* paths from the image of an NFA state *)
  assert (inj: forall n n' i, In (n, i) (co_map c) -> In (n', i) (co_map c) -> n = n').
  { intros n n' i H1 H2. clear - C5 H1 H2. induction (co_map c) as [|[k v] l IH]; [destruct H1|]. cbn in C5. inversion C5 as [|a d K1 K2]; subst.
    destruct H1 as [H1|H1], H2 as [H2|H2]; try congruence; auto.
    - inversion H1; subst. exfalso. apply K1. apply (in_map snd) in H2. exact H2.
    - inversion H2; subst. exfalso. apply K1. apply (in_map snd) in H1. exact H1. }
  assert (Pin: forall q w f, apath (aut_edges (co_aut c)) q w f -> forall n, In (n, q) (co_map c) -> exists n', In (n', f) (co_map c) /\ kpath P N map_edge n w n').
  { intros q w f H. induction H as [q|q l q1 w q2 He H IH|q q1 w q2 He H IH]; intros n Hn.
    - exists n. split; auto. constructor.
    - destruct (C9 _ _ _ He) as [x [n' [K1 [K2 K3]]]]. inversion K1; subst x. destruct (IH n' K2) as [n2 [I1 I2]]. exists n2. split; auto.
      destruct K3 as [[K3 _]|[m [K3 K4]]]; [apply Hst in K3; apply C3 in Hn; lia|]. rewrite (inj _ _ _ K3 Hn) in K4. econstructor; eauto.
    - destruct (C9 _ _ _ He) as [x [n' [K1 _]]]. discriminate. }
  assert (Pout: forall n w n', kpath P N map_edge n w n' -> forall q, In (n, q) (co_map c) -> exists f, In (n', f) (co_map c) /\ apath (aut_edges (co_aut c)) q w f).
  { intros n w n' H. induction H as [n|n x n1 w n2 He H IH]; intros q Hq.
    - exists q. split; auto. constructor.
    - destruct (D2 n q Hq x n1 q He (or_introl eq_refl)) as [t [T1 T2]]. destruct (IH t T1) as [f [F1 F2]]. exists f. split; auto. econstructor; eauto. }
  assert (Facc: forall n i, In (n, i) (co_map c) -> (aut_final (co_aut c) i <-> nF N n)).
  { intros n i H. destruct (C3 _ _ H) as [_ [_ [st [K1 K2]]]]. unfold aut_final, nF, sts_acc. rewrite K2. split; [intros K; exists st; split; congruence|intros [st' [K3 K4]]; congruence]. }
  intros q w. unfold aut_lang, lang. cbn [fst snd]. split.
  - intros [Hq [f [H1 H2]]]. inversion H1 as [q0|q0 l q1 w' q2 He H|q0 q1 w' q2 He H]; subst.
    + unfold aut_final in H2. rewrite C2 in H2 by auto. cbn in H2. rewrite special_acc_nth in H2; auto; [|intros; lia]. cbn in H2. injection H2 as H2. apply andb_true_iff in H2. destruct H2 as [B1 B2].
      apply memb_In in B2. split; auto. unfold b in B1. apply existsb_exists in B1. destruct B1 as [i [B3 B4]]. exists i, i. ands; auto; [constructor|].
      destruct (nth_error (n_states N) i) as [st|] eqn:K; [|discriminate]. exists st. auto.
    + destruct (C9 _ _ _ He) as [x [n' [K1 [K2 K3]]]]. inversion K1; subst x. destruct K3 as [[K3 [i [K4 K5]]]|[m [K3 _]]]; [|apply C3 in K3; lia]. split; auto.
      destruct (Pin _ _ _ H n' K2) as [n2 [I1 I2]]. exists i, n2. ands; auto; [|eapply Facc; eauto]. apply (kpath_sound P N map_edge Hnil). econstructor; eauto.
    + destruct (C9 _ _ _ He) as [x [n' [K1 _]]]. discriminate.
  - intros [Hq [i [f [H1 [H2 H3]]]]]. split; auto. destruct (kpath_complete P N map_edge Hnil _ _ _ H2 H3) as [q1 [K1 [K2 K3]]].
    assert (Hi: In q1 (n_init N)) by (eapply Hcc; eauto). inversion K3 as [q0|q0 x q2 w' q3 KE KP]; subst.
    + exists q. split; [constructor|]. unfold aut_final. rewrite C2 by auto. cbn. rewrite special_acc_nth; auto; [|intros; lia]. f_equal. apply andb_true_iff. split; [|apply memb_In; auto].
      unfold b. apply existsb_exists. exists f. split; auto. destruct H3 as [st [E1 E2]]. rewrite E1. auto.
    + destruct (D1 q1 Hi x q2 q KE Hq) as [t [T1 T2]]. destruct (Pout _ _ _ KP t T1) as [g [G1 G2]]. exists g. split; [econstructor; eauto|]. apply (Facc f); auto.
Qed.

(** The symbols are label ids. *)
Theorem aut_of_nfa_lang : forall addr P ord N states, (forall i j, addr i = addr j -> i = j) -> nfa_wf N -> compiled addr N -> nfa_syms_lt N (pd_nlab P) ->
  (forall q l, Permutation (ord q l) l) -> ssorted states -> (forall s, In s states -> s < pd_n P) ->
  exists A, aut_of_nfa addr P ord N ne_sym states = Some A /\ post_ok P A /\
    forall q w, aut_lang (pd_n P) A (q, w) <-> In q states /\ nfa_lang N w /\ Forall (fun x => x < pd_nlab P) w.
Proof.
  intros addr P ord N states Hinj W Hc Hsy Hord Hss Hst.
  destruct (aut_of_nfa_mapped addr P ord N ne_sym states) as [A [E [PO L]]]; auto.
  { intros q e [st [E1 E2]] _. apply is_sorted_spec, ssorted_le. eapply nw_dst; eauto. }
  { intros q e x He Hx. rewrite (elabs_sym P N q e x) in Hx; auto. apply Hx. }
  exists A. ands; auto. intros q w. rewrite L. split; intros [Hq H]; split; auto.
  - destruct H as [i [f [H1 [H2 H3]]]]. cut (apath (sts_edges (n_states N)) i w f /\ Forall (fun x => x < pd_nlab P) w).
    { intros [K1 K2]. split; auto. exists i, f. auto. }
    clear H1 H3. induction H2 as [q0|q0 l q1 w q2 [e [He [<- Hl]]] H IH|q0 q1 w q2 [e [He [<- Hl]]] H IH].
    + split; constructor.
    + destruct IH as [I1 I2]. rewrite (elabs_sym P N q0 e l) in Hl; auto. destruct Hl as [L1 L2]. split; [|constructor; auto]. destruct He as [st [E1 E2]]. apply ap_lab with (ne_dst e); auto. exists st, e. auto.
    + destruct IH as [I1 I2]. split; auto. destruct He as [st [E1 E2]]. apply ap_eps with (ne_dst e); auto. exists st, e. auto.
  - destruct H as [[i [f [H1 [H2 H3]]]] H4]. exists i, f. ands; auto. clear H1 H3.
    induction H2 as [q0|q0 l q1 w q2 [st [e [E1 [E2 [<- E3]]]]] H IH|q0 q1 w q2 [st [e [E1 [E2 [<- E3]]]]] H IH].
    + constructor.
    + inversion H4 as [|a b' K1 K2]; subst. apply ap_lab with (ne_dst e); auto. exists e. ands; auto; [exists st; auto|]. rewrite (elabs_sym P N q0 e l); auto. exists st; auto.
    + apply ap_eps with (ne_dst e); auto. exists e. ands; auto. exists st; auto.
Qed.

(** ** The automaton of a single configuration *)
Lemma add_state_size : forall A b, a_size (a_add_state A b) = S (a_size A).
Proof. intros. unfold a_size. cbn. rewrite app_length. cbn. lia. Qed.

Lemma single_loop_spec : forall nlab stack A last, last < a_size A -> NoDup (map fst (a_edges A)) ->
  (forall l t, ~ aut_edges A last l t) -> (forall q l t, aut_edges A q l t -> q < a_size A /\ t < a_size A) ->
  (aut_final A last <-> stack = []) -> Forall (fun x => x < nlab) stack ->
  exists A', single_loop A last stack = Some A' /\ a_ord A' = a_ord A /\ NoDup (map fst (a_edges A')) /\ a_size A <= a_size A' /\
    (forall q, q < a_size A -> nth_error (a_acc A') q = nth_error (a_acc A) q) /\
    (forall q l t, aut_edges A' q l t -> aut_edges A q l t \/ ((q = last \/ a_size A <= q) /\ q < a_size A' /\ a_size A <= t < a_size A' /\ exists x, l = Some x /\ x < nlab)) /\
    (forall q l t, aut_edges A q l t -> aut_edges A' q l t) /\
    (forall w, (exists f, apath (aut_edges A') last w f /\ aut_final A' f) <-> w = stack).
Proof.
  intros nlab. induction stack as [|l stack IH]; intros A last Hl Hn Hout Hr Hf Hs; cbn [single_loop].
  - exists A. ands; auto. intros w. split.
    + intros [f [H _]]. inversion H as [|q0 y q1 w' q2 He|q0 q1 w' q2 He]; subst; auto; exfalso; eapply Hout; eauto.
    + intros ->. exists last. split; [constructor|]. apply Hf; auto.
  - set (b := match stack with [] => true | _ => false end). destruct (add_edge_spec (a_add_state A b) last (Some l) (a_size A) TNull) as [A1 [E1 [B1 [B2 [B3 B4]]]]].
    { rewrite add_state_size. lia. } { cbn. auto. }
    rewrite E1. cbn [obind].
    assert (Z1: a_size A1 = S (a_size A)) by (unfold a_size at 1; rewrite B1; apply add_state_size).
    assert (B4': forall x y z, aut_edges A1 x y z <-> aut_edges A x y z \/ (x = last /\ y = Some l /\ z = a_size A)) by exact B4. clear B4.
    inversion Hs as [|? ? Hs1 Hs2]; subst.
    destruct (IH A1 (a_size A)) as [A' [E' [I1 [I2 [I3 [I4 [I5 [I6 I7]]]]]]]]; auto.
    + lia.
    + intros y t H. apply B4' in H. destruct H as [H|[H _]]; [apply Hr in H; lia|lia].
    + intros q y t H. rewrite Z1. apply B4' in H. destruct H as [H|[-> [_ ->]]]; [apply Hr in H; lia|lia].
    + unfold aut_final. rewrite B1. cbn. unfold a_size. rewrite nth_error_app2, Nat.sub_diag by auto. cbn. unfold b. destruct stack; split; auto; discriminate.
    + exists A'. rewrite E'. ands; auto.
      * rewrite I1, B2. auto.
      * lia.
      * intros q Hq. rewrite I4 by lia. rewrite B1. cbn. apply nth_error_app1. auto.
      * intros q y t H. apply I5 in H. destruct H as [H|[H1 [H2 [H3 H4]]]].
        -- apply B4' in H. destruct H as [H|[-> [-> ->]]]; auto. right. ands; eauto; try lia.
        -- right. ands; auto; try lia.
      * intros q y t H. apply I6, B4'. auto.
      * assert (D: forall y t, aut_edges A' last y t <-> y = Some l /\ t = a_size A).
        { intros y t. split.
          - intros H. apply I5 in H. destruct H as [H|[H1 [H2 [H3 H4]]]]; [|lia]. apply B4' in H. destruct H as [H|[_ H]]; auto. exfalso. eapply Hout; eauto.
          - intros [-> ->]. apply I6, B4'. auto. }
        assert (NF: ~ aut_final A' last). { unfold aut_final. rewrite I4 by lia. rewrite B1. cbn. rewrite nth_error_app1 by auto. intros K. apply Hf in K. discriminate. }
        intros w. split.
        -- intros [f [H K]]. inversion H as [q0|q0 y q1 w' q2 He H'|q0 q1 w' q2 He H']; subst; [contradiction| |].
           ++ apply D in He. destruct He as [He ->]. injection He as ->. f_equal. apply I7. eauto.
           ++ apply D in He. destruct He. discriminate.
        -- intros ->. destruct (proj2 (I7 stack) eq_refl) as [f [F1 F2]]. exists f. split; auto. apply ap_lab with (a_size A); auto. apply D. auto.
Qed.

Theorem aut_single_lang : forall P ord state stack, (forall q l, Permutation (ord q l) l) -> state < pd_n P -> Forall (fun x => x < pd_nlab P) stack ->
  exists A, aut_single P ord state stack = Some A /\ post_ok P A /\ forall q w, aut_lang (pd_n P) A (q, w) <-> q = state /\ w = stack.
Proof.
  intros P ord state stack Hord Hst Hlab. unfold aut_single. set (A0 := mk_aut _ _ _).
  assert (Z0: a_size A0 = pd_n P) by (unfold a_size, A0, single_acc; cbn; rewrite map_length, seq_length; auto).
  assert (F0: forall q, q < pd_n P -> (aut_final A0 q <-> q = state /\ stack = [])).
  { intros q Hq. unfold aut_final, A0, single_acc. cbn [a_acc]. rewrite nth_error_map. rewrite (List.nth_error_nth' (seq 0 (pd_n P)) 0) by (rewrite seq_length; auto). rewrite seq_nth by auto. cbn [option_map plus].
    destruct stack; split.
    - intros K. injection K as K. apply Nat.eqb_eq in K. auto.
    - intros [-> _]. rewrite Nat.eqb_refl. auto.
    - intros K. injection K as K. apply Nat.eqb_eq in K. lia.
    - intros [_ K]. discriminate. }
  assert (NE: forall q l t, ~ aut_edges A0 q l t) by (intros q l t []).
  destruct (single_loop_spec (pd_nlab P) stack A0 state) as [A [E [I1 [I2 [I3 [I4 [I5 [I6 I7]]]]]]]]; auto.
  - lia.
  - constructor.
  - intros q l t H. destruct (NE _ _ _ H).
  - rewrite F0 by auto. tauto.
  - exists A. split; auto. rewrite Z0 in *. split.
    + constructor; auto; [intros q l; rewrite I1; apply Hord|]. intros q l t H. apply I5 in H. destruct H as [H|[H1 [H2 [H3 H4]]]]; [destruct (NE _ _ _ H)|]. ands; auto; lia.
    + intros q w. unfold aut_lang, lang. cbn [fst snd]. split.
      * intros [Hq H]. destruct (Nat.eq_dec q state) as [->|Hne]; [split; auto; apply I7; auto|]. exfalso. destruct H as [f [H1 H2]].
        inversion H1 as [q0|q0 y q1 w' q2 He H'|q0 q1 w' q2 He H']; subst.
        -- unfold aut_final in H2. rewrite I4 in H2 by auto. apply (F0 f Hq) in H2. tauto.
        -- apply I5 in He. destruct He as [He|[[He|He] _]]; [destruct (NE _ _ _ He)|congruence|lia].
        -- apply I5 in He. destruct He as [He|[[He|He] _]]; [destruct (NE _ _ _ He)|congruence|lia].
      * intros [-> ->]. split; auto. apply I7. auto.
Qed.

(** ** Union of automata *)
Definition or_to (n k j : nat) : nat := if Nat.ltb j n then j else j + (k - n).
Record Inside (A : aut) : Prop := { in_range_ : forall q l t, aut_edges A q l t -> q < a_size A /\ t < a_size A; in_ord : wf_ord A }.

Lemma oe_state_spec : forall n k B A i, n <= k -> Inside B -> i < a_size B -> NoDup (map fst (a_edges A)) -> a_size A = k + (i - n) ->
  exists A', oe_state n (k - n) B A i = Some A' /\ a_ord A' = a_ord A /\ NoDup (map fst (a_edges A')) /\ a_size A' = k + (S i - n) /\
    (forall q l t, aut_edges A' q l t <-> aut_edges A q l t \/ exists t0, aut_edges B i l t0 /\ q = or_to n k i /\ t = or_to n k t0) /\
    (forall q, q < a_size A -> q <> or_to n k i -> nth_error (a_acc A') q = nth_error (a_acc A) q) /\
    (aut_final A' (or_to n k i) <-> aut_final B i \/ (i < n /\ aut_final A i)).
Proof.
  intros n k B A i Hnk [Hr Ho] Hi Hn Hz. unfold oe_state. destruct (nth_error_ex _ (a_acc B) i Hi) as [acc Eacc]. rewrite Eacc. cbn [obind].
  (* the state *)
  assert (H1: exists A1, (if Nat.leb n i then Some (a_add_state A acc, a_size A)
        else acc0 <- nth_error (a_acc A) i ;; Some (if negb acc0 && acc then mk_aut (upd (a_acc A) i true) (a_edges A) (a_ord A) else A, i)) = Some (A1, or_to n k i) /\
      a_ord A1 = a_ord A /\ a_edges A1 = a_edges A /\ a_size A1 = k + (S i - n) /\
      (forall q, q < a_size A -> q <> or_to n k i -> nth_error (a_acc A1) q = nth_error (a_acc A) q) /\ (aut_final A1 (or_to n k i) <-> aut_final B i \/ (i < n /\ aut_final A i))).
  { unfold or_to. destruct (Nat.leb_spec n i) as [E|E].
    - destruct (Nat.ltb_spec i n); [lia|]. exists (a_add_state A acc). rewrite add_state_size, Hz. replace (i + (k - n)) with (k + (i - n)) by lia.
      ands; auto; try lia; [intros q Hq _; cbn; apply nth_error_app1; unfold a_size in Hz; lia|].
      unfold aut_final. cbn. rewrite nth_error_app2; unfold a_size in Hz; rewrite Hz; auto. rewrite Nat.sub_diag, Eacc. cbn. split; [auto|intros [K|[K _]]; [auto|lia]].
    - destruct (Nat.ltb_spec i n); [|lia]. assert (Hi': i < a_size A) by lia. destruct (nth_error_ex _ (a_acc A) i Hi') as [acc0 E0]. rewrite E0. cbn [obind].
      unfold aut_final. rewrite Eacc, E0. destruct acc0, acc; cbn [negb andb]; (eexists; split; [reflexivity|]; cbn [a_acc a_edges a_ord]; ands; auto; try (unfold a_size in *; cbn; rewrite ?upd_length; lia); try (intros q Hq Hq'; rewrite nth_error_upd_neq; auto)).
      + rewrite E0. intuition.
      + rewrite E0. intuition.
      + rewrite nth_error_upd_eq by auto. intuition.
      + rewrite E0. intuition; discriminate. }
  destruct H1 as [A1 [E1 [F1 [F2 [F3 [F4 F5]]]]]]. rewrite E1. cbn [obind fst snd].
  assert (Lt: or_to n k i < a_size A1). { unfold or_to. rewrite F3. destruct (Nat.ltb_spec i n); lia. }
  destruct (ofold_adds _ (fun A to => ofold (fun A l => t <- find_edge (mk_edge i l to) (a_edges B) ;; a_add_edge A (or_to n k i) l (if Nat.ltb to n then to else to + (k - n)) t) (labels_between B i to) A)
    (fun t0 q l t => aut_edges B i l t0 /\ q = or_to n k i /\ t = or_to n k t0) (a_size A1) (tos B i) A1) as [A' [E' H']]; auto.
  - intros A2 to _ Hk2 Hn2.
    destruct (ofold_adds _ (fun A l => t <- find_edge (mk_edge i l to) (a_edges B) ;; a_add_edge A (or_to n k i) l (if Nat.ltb to n then to else to + (k - n)) t)
      (fun l0 q l t => l = l0 /\ q = or_to n k i /\ t = or_to n k to) (a_size A2) (labels_between B i to) A2) as [A3 [E3 H3]]; auto.
    + intros A4 l0 Hl0 Hk4 Hn4. apply labels_between_In in Hl0. destruct (find_edge_In _ _ Hl0) as [tr Etr]. rewrite Etr. cbn [obind].
      destruct (add_edge_spec A4 (or_to n k i) l0 (or_to n k to) tr) as [A5 [E5 [G1 [G2 [G3 G4]]]]]; auto; [lia|]. exists A5. split; auto. unfold adds. ands; auto. intros x y z. rewrite G4. intuition.
    + exists A3. split; auto. eapply adds_iff; [|exact H3]. cbn. intros q l t. split.
      * intros [l0 [L1 [-> [-> ->]]]]. apply labels_between_In in L1. auto.
      * intros [L1 [-> ->]]. exists l. rewrite labels_between_In. auto.
  - rewrite F2. auto.
  - exists A'. rewrite E'. destruct H' as [G1 [G2 [G3 G4]]]. ands; auto.
    + congruence.
    + unfold a_size at 1. rewrite G1. exact F3.
    + intros q l t. rewrite G4. unfold aut_edges at 1. rewrite F2. split; (intros [K|[t0 K]]; [left; exact K|right]).
      * exists t0. tauto.
      * exists t0. split; [|tauto]. apply (tos_In B i t0 Ho). destruct K as [K _]. eauto.
    + intros q Hq Hq'. rewrite G1. auto.
    + unfold aut_final at 1. rewrite G1. exact F5.
Qed.

Theorem a_or_extend_spec : forall n A B, Inside B -> n <= a_size A -> n <= a_size B -> NoDup (map fst (a_edges A)) ->
  exists C, a_or_extend n A B = Some C /\ a_ord C = a_ord A /\ NoDup (map fst (a_edges C)) /\ a_size C = a_size A + (a_size B - n) /\
    (forall q l t, aut_edges C q l t <-> aut_edges A q l t \/ exists i t0, aut_edges B i l t0 /\ q = or_to n (a_size A) i /\ t = or_to n (a_size A) t0) /\
    (forall q, n <= q < a_size A -> nth_error (a_acc C) q = nth_error (a_acc A) q) /\
    (forall i, i < a_size B -> (aut_final C (or_to n (a_size A) i) <-> aut_final B i \/ (i < n /\ aut_final A i))).
Proof.
  intros n A B IB HA HB Hn. unfold a_or_extend. apply Nat.leb_le in HA as HA'. apply Nat.leb_le in HB as HB'. rewrite HA', HB'. cbn [andb].
  set (k := a_size A) in *.
  assert (G: forall cnt i0 A1, i0 + cnt <= a_size B -> NoDup (map fst (a_edges A1)) -> a_size A1 = k + (i0 - n) ->
    exists C, ofold (oe_state n (k - n) B) (seq i0 cnt) A1 = Some C /\ a_ord C = a_ord A1 /\ NoDup (map fst (a_edges C)) /\ a_size C = k + (i0 + cnt - n) /\
    (forall q l t, aut_edges C q l t <-> aut_edges A1 q l t \/ exists i t0, i0 <= i < i0 + cnt /\ aut_edges B i l t0 /\ q = or_to n k i /\ t = or_to n k t0) /\
    (forall q, q < a_size A1 -> (forall i, i0 <= i < i0 + cnt -> q <> or_to n k i) -> nth_error (a_acc C) q = nth_error (a_acc A1) q) /\
    (forall i, i0 <= i < i0 + cnt -> (aut_final C (or_to n k i) <-> aut_final B i \/ (i < n /\ aut_final A1 i)))).
  { assert (OI: forall i j, or_to n k i = or_to n k j -> i = j). { unfold or_to. intros i j. destruct (Nat.ltb_spec i n), (Nat.ltb_spec j n); lia. }
    induction cnt as [|cnt IH]; intros i0 A1 Hc Hn1 Hz; cbn [seq ofold].
    - exists A1. ands; auto; try lia.
      + intros q l t. split; auto. intros [K|[i [t0 [K _]]]]; auto; lia.
    - destruct (oe_state_spec n k B A1 i0) as [A2 [E2 [O1 [O2 [O3 [O4 [O5 O6]]]]]]]; auto; [lia|]. rewrite E2. cbn [obind].
      destruct (IH (S i0) A2) as [C [E3 [P1 [P2 [P3 [P4 [P5 P6]]]]]]]; auto; [lia|]. exists C. ands; auto.
      + congruence.
      + rewrite P3. f_equal. lia.
      + intros q l t. rewrite P4, O4. split.
        * intros [[K|[t0 K]]|[i [t0 [K1 K2]]]]; auto; right; [exists i0, t0; split; [lia|auto]|exists i, t0; split; [lia|auto]].
        * intros [K|[i [t0 [K1 K2]]]]; auto. destruct (Nat.eq_dec i i0) as [->|Hne]; [left; right; eauto|right; exists i, t0; split; [lia|auto]].
      + intros q Hq Hall. rewrite P5; [apply O5; auto; apply Hall; lia|rewrite O3; lia|intros i Hi; apply Hall; lia].
      + intros i Hi. destruct (Nat.eq_dec i i0) as [->|Hne].
        * rewrite <- O6. unfold aut_final. rewrite P5; [tauto|rewrite O3; unfold or_to; destruct (Nat.ltb_spec i0 n); lia|]. intros j Hj K. apply OI in K. lia.
        * rewrite P6 by lia. split; (intros [K|[K1 K2]]; [left; auto|right; split; auto]); unfold aut_final in *; [rewrite O5 in K2|rewrite O5]; auto; try lia; unfold or_to; destruct (Nat.ltb_spec i0 n); lia. }
  destruct (G (a_size B) 0 A) as [C [E [P1 [P2 [P3 [P4 [P5 P6]]]]]]]; auto. exists C. ands; auto.
  - intros q l t. rewrite P4. split; (intros [K|[i [t0 K]]]; [auto|right; exists i, t0]); [tauto|]. destruct K as [K1 K2]. ands; auto; try lia. apply (in_range_ _ IB) in K1. lia.
  - intros q Hq. apply P5; [lia|]. intros i Hi. unfold or_to. destruct (Nat.ltb_spec i n); lia.
  - intros i Hi. apply P6. lia.
Qed.

(** The union: neither automaton may have edges into PDA states. *)
Theorem a_or_extend_lang : forall n A B, Inside A -> Inside B -> n <= a_size A -> n <= a_size B -> NoDup (map fst (a_edges A)) ->
  (forall q l t, aut_edges A q l t -> n <= t) -> (forall q l t, aut_edges B q l t -> n <= t) ->
  exists C, a_or_extend n A B = Some C /\ forall c, aut_lang n C c <-> aut_lang n A c \/ aut_lang n B c.
Proof.
  intros n A B IA IB HA HB Hn NA NB. destruct (a_or_extend_spec n A B IB HA HB Hn) as [C [E [P1 [P2 [P3 [P4 [P5 P6]]]]]]]. exists C. split; auto.
  set (k := a_size A) in *.
  assert (Lo: forall i, i < n -> or_to n k i = i) by (intros i Hi; unfold or_to; destruct (Nat.ltb_spec i n); lia).
  assert (Hi: forall i, n <= i -> or_to n k i = i + (k - n)) by (intros i Hi'; unfold or_to; destruct (Nat.ltb_spec i n); lia).
  assert (SA: forall q w f, apath (aut_edges C) q w f -> n <= q < k -> apath (aut_edges A) q w f /\ n <= f < k).
  { intros q w f H. induction H as [q|q l q1 w q2 He H IH|q q1 w q2 He H IH]; intros Hq; [split; auto; constructor| |];
      (apply P4 in He; destruct He as [He|[i [t0 [_ [He _]]]]]; [|unfold or_to in He; destruct (Nat.ltb_spec i n); lia];
       pose proof (NA _ _ _ He); pose proof (in_range_ _ IA _ _ _ He) as [_ R]; destruct IH as [I1 I2]; [fold k in R; lia|]; split; auto; econstructor; eauto). }
  assert (SB: forall q w f, apath (aut_edges C) q w f -> forall i, n <= i < a_size B -> q = or_to n k i -> exists j, n <= j < a_size B /\ f = or_to n k j /\ apath (aut_edges B) i w j).
  { intros q w f H. induction H as [q|q l q1 w q2 He H IH|q q1 w q2 He H IH]; intros i Hi' ->.
    - exists i. ands; auto; try lia. constructor.
    - apply P4 in He. destruct He as [He|[j [t0 [He [Eq ->]]]]]; [apply (in_range_ _ IA) in He; rewrite Hi in He by lia; fold k in He; lia|].
      assert (j = i) by (unfold or_to in Eq; destruct (Nat.ltb_spec i n), (Nat.ltb_spec j n); lia). subst j.
      destruct (IH t0) as [j [J1 [J2 J3]]]; auto. { split; [eapply NB; eauto|apply (in_range_ _ IB) in He; apply He]. } exists j. ands; auto; try lia. econstructor; eauto.
    - apply P4 in He. destruct He as [He|[j [t0 [He [Eq ->]]]]]; [apply (in_range_ _ IA) in He; rewrite Hi in He by lia; fold k in He; lia|].
      assert (j = i) by (unfold or_to in Eq; destruct (Nat.ltb_spec i n), (Nat.ltb_spec j n); lia). subst j.
      destruct (IH t0) as [j [J1 [J2 J3]]]; auto. { split; [eapply NB; eauto|apply (in_range_ _ IB) in He; apply He]. } exists j. ands; auto; try lia. eapply ap_eps; eauto. }
  assert (EB: forall i w j, apath (aut_edges B) i w j -> apath (aut_edges C) (or_to n k i) w (or_to n k j)).
  { intros i w j H. induction H as [q|q l q1 w q2 He H IH|q q1 w q2 He H IH]; [constructor|eapply ap_lab|eapply ap_eps]; try exact IH; apply P4; right; eauto. }
  assert (FA: forall f, f < k -> aut_final A f -> aut_final C f).
  { intros f Hf K. destruct (le_lt_dec n f) as [L|L]; [unfold aut_final; rewrite P5; auto|]. rewrite <- (Lo f L). apply P6; [lia|auto]. }
  assert (step: forall q l q1 (w w0 : list nat) f, q < n -> aut_edges C q l q1 -> apath (aut_edges C) q1 w f -> aut_final C f ->
    (exists g, aut_edges A q l q1 /\ apath (aut_edges A) q1 w g /\ aut_final A g) \/ exists t g, aut_edges B q l t /\ apath (aut_edges B) t w g /\ aut_final B g).
  { intros q l q1 w w0 f Hq He Hp Hf. apply P4 in He. destruct He as [He|[i [t0 [He [Eq ->]]]]].
    - left. pose proof (NA _ _ _ He) as R1. pose proof (in_range_ _ IA _ _ _ He) as [_ R2]. destruct (SA _ _ _ Hp) as [S1 S2]; [fold k in R2; lia|]. exists f. ands; auto. unfold aut_final in *. rewrite P5 in Hf; auto.
    - right. assert (i = q) by (unfold or_to in Eq; destruct (Nat.ltb_spec i n); lia). subst i. pose proof (NB _ _ _ He) as R1. pose proof (in_range_ _ IB _ _ _ He) as [_ R2].
      destruct (SB _ _ _ Hp t0) as [j [J1 [-> J3]]]; auto. exists t0, j. ands; auto. apply P6 in Hf; [|lia]. destruct Hf as [Hf|[Hf _]]; [auto|lia]. }
  intros [q w]. unfold aut_lang, lang. cbn [fst snd]. split.
  - intros [Hq [f [H1 H2]]]. inversion H1 as [q0|q0 l q1 w' q2 He H|q0 q1 w' q2 He H]; subst.
    + rewrite <- (Lo f Hq) in H2. apply P6 in H2; [|lia]. destruct H2 as [H2|[_ H2]]; [right|left]; (split; auto; exists f; split; [constructor|auto]).
    + destruct (step _ _ _ _ w' _ Hq He H H2) as [[g [K1 [K2 K3]]]|[t [g [K1 [K2 K3]]]]]; [left|right]; (split; auto; exists g; split; auto; eapply ap_lab; eauto).
    + destruct (step _ _ _ _ w _ Hq He H H2) as [[g [K1 [K2 K3]]]|[t [g [K1 [K2 K3]]]]]; [left|right]; (split; auto; exists g; split; auto; eapply ap_eps; eauto).
  - intros [[Hq [f [H1 H2]]]|[Hq [f [H1 H2]]]]; split; auto.
    + exists f. split; [eapply apath_mono; [|exact H1]; intros; apply P4; auto|]. apply FA; auto. apply nth_error_lt in H2. exact H2.
    + exists (or_to n k f). split; [rewrite <- (Lo q Hq); apply EB; auto|]. apply P6; auto. apply nth_error_lt in H2. exact H2.
Qed.
Theorem a_or_extend_post_ok : forall P A B C, post_ok P A -> post_ok P B -> a_or_extend (pd_n P) A B = Some C -> post_ok P C.
Proof.
  intros P A B C HA HB E. destruct HA as [A1 A2 A3 A4], HB as [B1 B2 B3 B4].
  assert (IB: Inside B). { constructor; auto. intros q l t H. destruct (B4 _ _ _ H) as [K1 [K2 _]]. split; auto. apply K2. }
  destruct (a_or_extend_spec (pd_n P) A B IB A1 B1 A3) as [C' [E' [P1 [P2 [P3 [P4 _]]]]]]. rewrite E' in E. injection E as <-. constructor; auto.
  - lia.
  - intros q l. rewrite P1. apply A2.
  - intros q l t H. rewrite P3. apply P4 in H. destruct H as [H|[i [t0 [H [-> ->]]]]].
    + destruct (A4 _ _ _ H) as [K1 [K2 K3]]. ands; auto; lia.
    + destruct (B4 _ _ _ H) as [K1 [K2 K3]]. unfold or_to. destruct (Nat.ltb_spec i (pd_n P)), (Nat.ltb_spec t0 (pd_n P)); ands; auto; lia.
Qed.
