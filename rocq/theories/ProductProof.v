(** The product automaton represents the joint moves of its components. *)
From Coq Require Import List Arith Lia Bool Permutation Sorted.
From Verif Require Import Base BaseFacts Spec SpecFacts PdaModel AutModel AutProof SolverModel QueryModel QueryProof ProductModel.
Import ListNotations.

(** A joint move: both components read the same label, or one of them takes an epsilon edge. *)
Definition joint (EF ES : edgeset) (a b : nat) (l : option nat) (a' b' : nat) : Prop :=
  match l with
  | Some x => EF a (Some x) a' /\ ES b (Some x) b'
  | None => (EF a None a' /\ b' = b) \/ (ES b None b' /\ a' = a)
  end.

Lemma id_find_Some : forall k l i j, id_find k l i = Some j -> i <= j /\ nth_error l (j - i) = Some k.
Proof.
  intros k l; induction l as [|[x y] l IH]; intros i j H; cbn in H; [discriminate|]. destruct k as [a b]. cbn in *.
  destruct (Nat.eqb_spec x a) as [E1|E1]; destruct (Nat.eqb_spec y b) as [E2|E2]; cbn in H.
  1: { inversion H; subst. split; auto. rewrite Nat.sub_diag. auto. }
  all: apply IH in H; destruct H as [H1 H2]; split; [lia|]; replace (j - i) with (S (j - S i)) by lia; auto.
Qed.
Lemma id_find_None : forall k l i, id_find k l i = None -> ~ In k l.
Proof.
  intros k l; induction l as [|[x y] l IH]; intros i H; cbn in *; auto. destruct k as [a b]. cbn in *.
  destruct (Nat.eqb_spec x a) as [E1|E1]; destruct (Nat.eqb_spec y b) as [E2|E2]; cbn in H; try discriminate.
  all: intros [K|K]; [inversion K; lia|]; eapply IH; eauto.
Qed.

Lemma vresize_len : forall X (d : X) k l, length (vresize d k l) = k.
Proof. intros. unfold vresize. rewrite app_length, firstn_length, repeat_length. lia. Qed.
Lemma nth_vresize : forall A (v : list (list A)) k a, length v <= k -> nth a (vresize [] k v) [] = nth a v [].
Proof.
  intros A v k a H. unfold vresize. rewrite firstn_all2 by auto. destruct (Nat.lt_ge_cases a (length v)).
  - apply app_nth1; auto.
  - rewrite app_nth2 by auto. rewrite (nth_overflow v) by auto. apply nth_repeat.
Qed.
Lemma nth_upd' : forall A (v : list A) a b x d, nth a (upd v b x) d = if Nat.eqb a b && Nat.ltb b (length v) then x else nth a v d.
Proof.
  induction v as [|y v IH]; intros a b x d.
  - rewrite andb_false_r. destruct b; reflexivity.
  - destruct a, b; cbn; auto. rewrite IH. reflexivity.
Qed.
Lemma fast_add_nth : forall v a x b, nth b (fast_add v a x) [] = nth b v [] ++ (if Nat.eqb b a then [x] else []).
Proof.
  intros v a x b. unfold fast_add. set (v1 := if Nat.leb (length v) a then vresize [] (a + 1) v else v).
  assert (H1: a < length v1 /\ forall c, nth c v1 [] = nth c v []).
  { unfold v1. destruct (Nat.leb_spec (length v) a); [|auto]. split; [rewrite vresize_len; lia|]. intros; apply nth_vresize; lia. }
  destruct H1 as [H1 H2]. rewrite nth_upd'. apply Nat.ltb_lt in H1. rewrite H1, andb_true_r. destruct (Nat.eqb_spec b a) as [->|E]; rewrite H2; auto.
  rewrite app_nil_r. auto.
Qed.

Lemma add_edge_edges : forall A q l q' t, q < a_size A -> exists A', a_add_edge A q l q' t = Some A' /\ a_acc A' = a_acc A /\ a_ord A' = a_ord A /\
  forall x y z, aut_edges A' x y z <-> aut_edges A x y z \/ (x = q /\ y = l /\ z = q').
Proof.
  intros A q l q' t H. unfold a_add_edge, emplace_edge. cbn [e_src]. apply Nat.ltb_lt in H. rewrite H. destruct (find_edge (mk_edge q l q') (a_edges A)) eqn:E.
  - exists A. ands; auto. intros x y z. split; auto. intros [K|[-> [-> ->]]]; auto. apply find_edge_Some in E. apply (in_map fst) in E. exact E.
  - eexists; split; [reflexivity|]. ands; auto. intros x y z. unfold aut_edges, edges_of. cbn. split.
    + intros [K|K]; auto. inversion K; auto.
    + intros [K|[-> [-> ->]]]; auto.
Qed.

Section Product.
  Variable n : nat.
  Notation pair := (pr_pair n).
  Definition psz (pr : prod_st) := a_size (pr_aut pr).

  Definition ext (pr pr' : prod_st) : Prop := (exists k, pr_ids pr' = pr_ids pr ++ k) /\
    (forall x y z, aut_edges (pr_aut pr) x y z -> aut_edges (pr_aut pr') x y z).
  Lemma ext_refl : forall pr, ext pr pr.
  Proof. intros; split; auto. exists []. rewrite app_nil_r; auto. Qed.
  Lemma ext_trans : forall a b c, ext a b -> ext b c -> ext a c.
  Proof. intros a b c [[k E] H] [[k' E'] H']. split; auto. exists (k ++ k'). rewrite E', E, app_assoc. auto. Qed.
  Lemma ext_pair : forall pr pr' id x, ext pr pr' -> pair pr id = Some x -> pair pr' id = Some x.
  Proof.
    intros pr pr' id x [[k E] _] H. unfold pr_pair in *. destruct (Nat.ltb id n); auto. rewrite E. apply nth_error_app1_some. auto.
  Qed.

  Definition has (pr : prod_st) (id : nat) (l : option nat) (a b : nat) : Prop := exists id', pair pr id' = Some (a, b) /\ aut_edges (pr_aut pr) id l id'.
  Lemma has_ext : forall pr pr' id l a b, ext pr pr' -> has pr id l a b -> has pr' id l a b.
  Proof. intros pr pr' id l a b H [id' [H1 H2]]. exists id'. split; [eapply ext_pair; eauto|apply H; auto]. Qed.

  Section Components.
    Variables (F S : aut) (back : bool).
    Let EF := aut_edges F.
    Let ES := aut_edges S.

    Record pbase0 (pr : prod_st) : Prop := {
      pb_size : psz pr = n + length (pr_ids pr);
      pb_nd : NoDup (pr_ids pr);
      pb_ids : forall a b, In (a, b) (pr_ids pr) -> a < a_size F /\ b < a_size S /\ ~ (a = b /\ a < n);
      pb_acc : forall id a b, pair pr id = Some (a, b) -> (aut_final (pr_aut pr) id <-> aut_final F a /\ aut_final S b);
      pb_fast : forall a b id, In (b, id) (nth a (pr_fast pr) []) <-> n <= id /\ pair pr id = Some (a, b);
      pb_back : back = true -> forall a b id, In (a, id) (nth b (pr_back pr) []) <-> n <= id /\ pair pr id = Some (a, b);
      pb_ord : wf_ord (pr_aut pr);
      pb_edges : forall id l id', aut_edges (pr_aut pr) id l id' -> exists a b a' b', pair pr id = Some (a, b) /\ pair pr id' = Some (a', b') /\ joint EF ES a b l a' b' }.
    Definition preachable (pr : prod_st) (id : nat) : Prop := exists p w, p < n /\ apath (aut_edges (pr_aut pr)) p w id.
    Record pbase (pr : prod_st) : Prop := {
      pb_0 : pbase0 pr;
      pb_reach : forall id, id < psz pr -> preachable pr id }.

    Hypothesis WF : aut_wf F.
    Hypothesis WS : aut_wf S.
    Hypothesis HF : n <= a_size F.
    Hypothesis HS : n <= a_size S.

    Lemma joint_range : forall a b l a' b', a < a_size F -> b < a_size S -> joint EF ES a b l a' b' -> a' < a_size F /\ b' < a_size S.
    Proof.
      intros a b [x|] a' b' Ha Hb H; cbn in H.
      - destruct H as [H1 H2]. apply (aw_range _ WF) in H1. apply (aw_range _ WS) in H2. tauto.
      - destruct H as [[H1 ->]|[H1 ->]]; [apply (aw_range _ WF) in H1|apply (aw_range _ WS) in H1]; tauto.
    Qed.

    Lemma pair_lt : forall pr id, pbase0 pr -> id < psz pr <-> exists x, pair pr id = Some x.
    Proof.
      intros pr id B. rewrite (pb_size _ B). unfold pr_pair. destruct (Nat.ltb_spec id n); split; intros H'; try lia; eauto.
      - apply nth_error_ex. lia.
      - destruct H' as [x H']. apply nth_error_lt in H'. lia.
    Qed.
    Lemma pair_range : forall pr id a b, pbase0 pr -> pair pr id = Some (a, b) -> a < a_size F /\ b < a_size S.
    Proof.
      intros pr id a b B H. unfold pr_pair in H. destruct (Nat.ltb_spec id n).
      - inversion H; subst. lia.
      - apply nth_error_In in H. apply (pb_ids _ B) in H. tauto.
    Qed.
    Lemma pair_inj : forall pr i j x, pbase0 pr -> pair pr i = Some x -> pair pr j = Some x -> i = j.
    Proof.
      intros pr i j [a b] B H1 H2. unfold pr_pair in *. destruct (Nat.ltb_spec i n); destruct (Nat.ltb_spec j n).
      - congruence.
      - inversion H1; subst. apply nth_error_In in H2. apply (pb_ids _ B) in H2. destruct H2 as [_ [_ H2]]. exfalso; auto.
      - inversion H2; subst. apply nth_error_In in H1. apply (pb_ids _ B) in H1. destruct H1 as [_ [_ H1]]. exfalso; auto.
      - assert (i - n = j - n); [|lia]. eapply NoDup_nth_error; [apply (pb_nd _ B)|apply nth_error_lt in H1; auto|congruence].
    Qed.

    Lemma acc_both : forall a b x y, accepting F a = Some x -> accepting S b = Some y -> (x && y = true <-> aut_final F a /\ aut_final S b).
    Proof.
      intros a b x y H1 H2. unfold aut_final. unfold accepting in *. rewrite H1, H2, andb_true_iff. split; intros [K1 K2]; split; congruence.
    Qed.

    Lemma gps_spec : forall pr a b, pbase0 pr -> a < a_size F -> b < a_size S ->
      exists pr' fr id, get_product_state n back F S pr a b = Some (pr', (fr, id)) /\ pbase0 pr' /\ ext pr pr' /\ pair pr' id = Some (a, b) /\
        (forall x y z, aut_edges (pr_aut pr') x y z <-> aut_edges (pr_aut pr) x y z) /\
        if fr : bool then id = psz pr /\ psz pr' = psz pr + 1 else pr' = pr.
    Proof.
      intros pr a b B Ha Hb. unfold get_product_state. destruct (nth_error_ex _ _ _ Ha) as [x Ex]. destruct (nth_error_ex _ _ _ Hb) as [y Ey].
      unfold accepting at 1 2. rewrite Ex, Ey. cbn [obind]. destruct (Nat.eqb a b && Nat.ltb a n) eqn:Eab.
      { apply andb_true_iff in Eab. destruct Eab as [E1 E2]. apply Nat.eqb_eq in E1. subst b.
        exists pr, false, a. ands; auto using ext_refl; try tauto. unfold pr_pair. rewrite E2. auto. }
      destruct (id_find (a, b) (pr_ids pr) 0) as [i|] eqn:Ei.
      { apply id_find_Some in Ei. destruct Ei as [_ Ei]. rewrite Nat.sub_0_r in Ei. exists pr, false, (i + n). ands; auto using ext_refl; try tauto.
        unfold pr_pair. destruct (Nat.ltb_spec (i + n) n); [lia|]. replace (i + n - n) with i by lia. auto. }
      apply id_find_None in Ei. assert (Hsz := pb_size _ B). unfold psz in Hsz. assert (Hsz': a_size (pr_aut pr) = length (pr_ids pr) + n) by lia.
      assert (Hsz'' := Hsz'). apply Nat.eqb_eq in Hsz''. rewrite Hsz''. eexists _, true, _. split; [reflexivity|].
      set (pr' := mk_prod (a_add_state (pr_aut pr) (x && y)) (pr_ids pr ++ [(a, b)]) (fast_add (pr_fast pr) a (b, a_size (pr_aut pr)))
                    (if back then fast_add (pr_back pr) b (a, a_size (pr_aut pr)) else pr_back pr)).
      assert (EX: ext pr pr') by (split; [exists [(a, b)]; auto|auto]).
      assert (PN: pair pr' (a_size (pr_aut pr)) = Some (a, b)).
      { unfold pr_pair. destruct (Nat.ltb_spec (a_size (pr_aut pr)) n); [lia|]. cbn [pr_ids pr']. rewrite nth_error_app2 by lia.
        replace (a_size (pr_aut pr) - n - length (pr_ids pr)) with 0 by lia. auto. }
      assert (PO: forall id z, pair pr' id = Some z -> pair pr id = Some z \/ (id = a_size (pr_aut pr) /\ z = (a, b))).
      { intros id z H. destruct (Nat.eq_dec id (a_size (pr_aut pr))) as [->|Hne]; [right; split; congruence|left].
        unfold pr_pair in *. destruct (Nat.ltb_spec id n); auto. cbn [pr_ids pr'] in H. assert (L := nth_error_lt _ _ _ _ H). rewrite app_length in L. cbn in L.
        rewrite nth_error_app1 in H by lia. auto. }
      assert (PL: forall id z, pair pr id = Some z -> id < a_size (pr_aut pr)) by (intros id z H; apply (proj2 (pair_lt pr id B)); eauto).
      ands; auto; try tauto.
      - constructor.
        + unfold psz, a_size. cbn. rewrite !app_length. cbn. unfold a_size in Hsz. lia.
        + cbn. apply NoDup_app_snoc; auto. apply B.
        + cbn. intros a0 b0 H. apply in_app_or in H. destruct H as [H|[H|[]]]; [apply (pb_ids _ B); auto|]. inversion H; subst. ands; auto.
          intros [-> Hlt]. apply Nat.ltb_lt in Hlt. rewrite Nat.eqb_refl, Hlt in Eab. discriminate.
        + intros id a0 b0 H. destruct (PO _ _ H) as [H0|[-> H0]].
          * rewrite <- (pb_acc _ B _ _ _ H0). unfold aut_final. cbn. apply PL in H0. unfold a_size in H0. rewrite nth_error_app1 by auto. tauto.
          * inversion H0; subst. rewrite <- (acc_both _ _ _ _ Ex Ey). unfold aut_final, a_size. cbn. rewrite nth_error_app2, Nat.sub_diag by auto. cbn. split; congruence.
        + intros a0 b0 id. cbn [pr_fast pr']. rewrite fast_add_nth, in_app_iff, (pb_fast _ B). split.
          * intros [[H1 H2]|H]; [split; auto; eapply ext_pair; eauto|]. destruct (Nat.eqb_spec a0 a) as [->|]; [|destruct H]. destruct H as [H|[]].
            inversion H; subst. split; [lia|auto].
          * intros [H1 H2]. destruct (PO _ _ H2) as [H0|[-> H0]]; auto. inversion H0; subst. right. rewrite Nat.eqb_refl. left; auto.
        + intros Hb' a0 b0 id. cbn [pr_back pr']. rewrite Hb'. rewrite fast_add_nth, in_app_iff, (pb_back _ B Hb'). split.
          * intros [[H1 H2]|H]; [split; auto; eapply ext_pair; eauto|]. destruct (Nat.eqb_spec b0 b) as [->|]; [|destruct H]. destruct H as [H|[]].
            inversion H; subst. split; [lia|auto].
          * intros [H1 H2]. destruct (PO _ _ H2) as [H0|[-> H0]]; auto. inversion H0; subst. right. rewrite Nat.eqb_refl. left; auto.
        + intros q l. apply (pb_ord _ B).
        + intros id l id' H. destruct (pb_edges _ B id l id' H) as [a0 [b0 [a1 [b1 [H1 [H2 H3]]]]]]. exists a0, b0, a1, b1. ands; auto; eapply ext_pair; eauto.
      - unfold psz, a_size. cbn. rewrite app_length. cbn. auto.
    Qed.

    Lemma add1_spec : forall pr top l id a b a' b', pbase0 pr -> pair pr top = Some (a, b) -> pair pr id = Some (a', b') -> joint EF ES a b l a' b' ->
      exists pr', pr_add_edge pr top l id = Some pr' /\ pbase0 pr' /\ pr_ids pr' = pr_ids pr /\ psz pr' = psz pr /\
        (forall x y z, aut_edges (pr_aut pr') x y z <-> aut_edges (pr_aut pr) x y z \/ (x = top /\ y = l /\ z = id)).
    Proof.
      intros pr top l id a b a' b' B H1 H2 HJ. assert (L: top < a_size (pr_aut pr)) by (apply (pair_lt pr top B); eauto).
      destruct (add_edge_edges (pr_aut pr) top l id TNull L) as [A' [E1 [E2 [E3 E4]]]]. unfold pr_add_edge. rewrite E1. cbn [obind].
      eexists; split; [reflexivity|]. ands; auto.
      - destruct B. constructor; cbn; auto.
        + unfold psz in *. cbn. unfold a_size in *. rewrite E2. auto.
        + intros id0 a0 b0 H. unfold aut_final. rewrite E2. apply pb_acc0; auto.
        + intros q l0. rewrite E3. apply pb_ord0.
        + intros id0 l0 id1 H. apply E4 in H. destruct H as [H|[-> [-> ->]]]; [apply pb_edges0; auto|]. exists a, b, a', b'. ands; auto.
      - unfold psz, a_size. cbn. rewrite E2. auto.
    Qed.

    Lemma adds_spec : forall ls pr top id a b a' b', pbase0 pr -> pair pr top = Some (a, b) -> pair pr id = Some (a', b') ->
      (forall l, In l ls -> joint EF ES a b l a' b') ->
      exists pr', ofold (fun pr l => pr_add_edge pr top l id) ls pr = Some pr' /\ pbase0 pr' /\ pr_ids pr' = pr_ids pr /\ psz pr' = psz pr /\
        (forall x y z, aut_edges (pr_aut pr') x y z <-> aut_edges (pr_aut pr) x y z \/ (x = top /\ In y ls /\ z = id)).
    Proof.
      induction ls as [|l ls IH]; intros pr top id a b a' b' B H1 H2 HJ; cbn [ofold].
      - exists pr. ands; auto. intros x y z. cbn. tauto.
      - destruct (add1_spec pr top l id a b a' b' B H1 H2) as [p1 [E1 [B1 [I1 [Z1 D1]]]]]; [apply HJ; left; auto|]. rewrite E1. cbn [obind].
        assert (PP: forall i, pair p1 i = pair pr i) by (intros; unfold pr_pair; rewrite I1; auto).
        destruct (IH p1 top id a b a' b' B1) as [p2 [E2 [B2 [I2 [Z2 D2]]]]]; try (rewrite PP; auto). { intros; apply HJ; right; auto. }
        exists p2. ands; auto; try congruence. intros x y z. rewrite D2, D1. cbn. intuition.
    Qed.

    (** Loop states: the waiting list is the new states on top of the old waiting list. *)
    Definition LI (pr0 : prod_st) (w0 : list nat) (s : ploop) : Prop :=
      pbase (fst s) /\ ext pr0 (fst s) /\ psz pr0 <= psz (fst s) /\ snd s = rev (seq (psz pr0) (psz (fst s) - psz pr0)) ++ w0.
    Definition le (s s' : ploop) : Prop := ext (fst s) (fst s').
    Definition found (ET : bool) (pr0 pr : prod_st) : Prop := ET = true /\ pbase pr /\ ext pr0 pr /\ has_accepting pr = true.

    Lemma preach_mono : forall pr pr' id, (forall x y z, aut_edges (pr_aut pr) x y z -> aut_edges (pr_aut pr') x y z) -> preachable pr id -> preachable pr' id.
    Proof. intros pr pr' id H [p [w [H1 H2]]]. exists p, w. split; auto. eapply apath_mono; eauto. Qed.

    Lemma apath_snoc : forall E q w r l t, apath E q w r -> E r l t -> exists w', apath E q w' t.
    Proof.
      intros E q w r l t H1 H2. destruct l as [x|].
      - exists (w ++ [x]). eapply apath_app; eauto. eapply ap_lab; eauto. constructor.
      - exists (w ++ []). eapply apath_app; eauto. eapply ap_eps; eauto. constructor.
    Qed.

    Lemma target_spec : forall ET pr0 w0 s top a b a' b' ls, LI pr0 w0 s -> pair (fst s) top = Some (a, b) ->
      (forall l, In l ls -> joint EF ES a b l a' b') -> ls <> [] ->
      exists pr1 fr id, get_product_state n back F S (fst s) a' b' = Some (pr1, (fr, id)) /\
        exists pr2, ofold (fun pr l => pr_add_edge pr top l id) ls pr1 = Some pr2 /\
          match pr_finish ET pr2 (snd s) fr id with
          | inr p => found ET pr0 p
          | inl s' => LI pr0 w0 s' /\ le s s' /\ forall l, In l ls -> has (fst s') top l a' b'
          end.
    Proof.
      intros ET pr0 w0 [pr w] top a b a' b' ls [B [EX [LE EW]]] HP HJ Hne. cbn [fst snd] in *. destruct B as [B R].
      destruct ls as [|l0 ls0]; [contradiction|]. set (ls := l0 :: ls0) in *.
      assert (HJ0 := HJ l0 (or_introl eq_refl)). destruct (pair_range _ _ _ _ B HP) as [Ra Rb]. destruct (joint_range _ _ _ _ _ Ra Rb HJ0) as [Ra' Rb'].
      destruct (gps_spec pr a' b' B Ra' Rb') as [p1 [fr [id [E1 [B1 [X1 [P1 [D1 Hfr]]]]]]]]. exists p1, fr, id. split; auto.
      destruct (adds_spec ls p1 top id a b a' b' B1) as [p2 [E2 [B2 [I2 [Z2 D2]]]]]; auto. { eapply ext_pair; eauto. }
      exists p2. split; auto.
      assert (X2: ext pr p2).
      { split. - destruct X1 as [[k Ek] _]. exists k. congruence. - intros x y z H. apply D2. left. apply D1; auto. }
      assert (Hlt: top < psz pr) by (apply (pair_lt pr top B); eauto).
      assert (B3: pbase p2).
      { constructor; auto. intros i Hi. rewrite Z2 in Hi. destruct fr.
        - destruct Hfr as [-> Hz]. destruct (Nat.eq_dec i (psz pr)) as [->|Hn].
          + destruct (R top Hlt) as [p [w1 [R1 R2]]]. assert (R2': apath (aut_edges (pr_aut p2)) p w1 top) by (eapply apath_mono; [|exact R2]; apply X2).
            destruct (apath_snoc _ _ _ _ l0 (psz pr) R2') as [w2 R3]. { apply D2. right. ands; auto. left; auto. } exists p, w2. auto.
          + eapply preach_mono; [apply X2|]. apply R. lia.
        - subst p1. eapply preach_mono; [apply X2|]. apply R. auto. }
      unfold pr_finish. destruct (ET && has_accepting p2) eqn:EA.
      { apply andb_true_iff in EA. destruct EA as [-> EA]. unfold found. ands; auto. eapply ext_trans; eauto. }
      assert (Lid: id < psz p2). { rewrite Z2. apply (pair_lt p1 id B1); eauto. }
      ands.
      - unfold LI. cbn [fst snd]. ands; auto.
        + eapply ext_trans; eauto.
        + rewrite Z2. destruct fr; [lia|]. subst p1; auto.
        + rewrite Z2. destruct fr.
          * destruct Hfr as [-> Hz]. rewrite Hz. replace (psz pr + 1 - psz pr0) with (Datatypes.S (psz pr - psz pr0)) by lia.
            rewrite seq_S, rev_app_distr. cbn. rewrite EW. replace (psz pr0 + (psz pr - psz pr0)) with (psz pr) by lia. auto.
          * subst p1. auto.
      - exact X2.
      - intros l Hl. exists id. cbn [fst]. split.
        + unfold pr_pair in *. rewrite I2. auto.
        + apply D2. auto.
    Qed.

    (** ** Labels of both components *)
    Definition lab_lt (a b : option nat) : Prop := lab_ltb a b = true.
    Lemma lab_lt_trans : forall a b c, lab_lt a b -> lab_lt b c -> lab_lt a c.
    Proof. intros [a|] [b|] [c|]; unfold lab_lt; cbn; try discriminate; auto. rewrite !Nat.ltb_lt. lia. Qed.
    Lemma lab_total : forall a b, lab_ltb a b = false -> lab_ltb b a = false -> a = b.
    Proof. intros [a|] [b|]; cbn; try discriminate; auto. rewrite !Nat.ltb_ge. intros. f_equal. lia. Qed.
    Lemma lab_irr : forall a, ~ lab_lt a a.
    Proof. intros [a|]; unfold lab_lt; cbn; [rewrite Nat.ltb_irrefl|]; discriminate. Qed.

    Definition lsorted (l : list (option nat)) : Prop := StronglySorted lab_lt l.
    Lemma lab_insert_sorted : forall l ls, lsorted ls -> lsorted (lab_insert l ls).
    Proof.
      intros l ls; induction ls as [|x ls IH]; intros H; cbn; [repeat constructor|]. inversion H as [|? ? H1 H2]; subst.
      destruct (lab_ltb x l) eqn:E1.
      - constructor; [apply IH; auto|]. apply Forall_forall. intros y Hy. rewrite Forall_forall in H2.
        assert (K: y = l \/ In y ls).
        { clear - Hy. induction ls as [|z ls IH]; cbn in *; [destruct Hy; auto; contradiction|]. destruct (lab_ltb z l); [destruct Hy as [->|Hy]; auto; apply IH in Hy; tauto|].
          destruct (lab_eqb z l); [auto|]. destruct Hy as [->|Hy]; auto. }
        destruct K as [->|K]; auto.
      - destruct (lab_eqb x l) eqn:E2; auto. constructor; auto. apply Forall_forall. intros y Hy.
        assert (L: lab_lt l x). { unfold lab_lt. destruct (lab_ltb l x) eqn:E3; auto. assert (x = l) by (apply lab_total; auto). apply lab_eqb_eq in H0. congruence. }
        destruct Hy as [<-|Hy]; auto. rewrite Forall_forall in H2. apply (lab_lt_trans _ x); auto.
    Qed.
    Lemma labels_between_sorted : forall A q t, lsorted (labels_between A q t).
    Proof. intros. unfold labels_between. generalize (map (fun et : edge * trace => e_lab (fst et)) (filter (fun et : edge * trace => Nat.eqb (e_src (fst et)) q && Nat.eqb (e_dst (fst et)) t) (a_edges A))).
      induction l as [|x l IH]; cbn; [constructor|]. apply lab_insert_sorted; auto. Qed.

    Lemma set_inter_In : forall k a b l, lsorted a -> lsorted b -> length a + length b <= k -> In l (set_inter k a b) <-> In l a /\ In l b.
    Proof.
      induction k as [|k IH]; intros a b l Ha Hb Hk.
      - destruct a; [|cbn in Hk; lia]. cbn. tauto.
      - cbn. destruct a as [|x a]; [cbn; tauto|]. destruct b as [|y b]; [cbn; tauto|]. inversion Ha as [|? ? A1 A2]; subst. inversion Hb as [|? ? B1 B2]; subst.
        rewrite Forall_forall in A2, B2. cbn in Hk. destruct (lab_ltb x y) eqn:E1.
        + rewrite IH by (auto; cbn; lia). cbn. split; [tauto|]. intros [[<-|H1] H2]; auto. exfalso. destruct H2 as [<-|H2].
          * apply (lab_irr y); auto. * apply (lab_irr x). eapply lab_lt_trans; [exact E1|]. apply B2; auto.
        + destruct (lab_ltb y x) eqn:E2.
          * rewrite IH by (auto; cbn; lia). cbn. split; [tauto|]. intros [H1 [<-|H2]]; auto. exfalso. destruct H1 as [<-|H1].
            -- apply (lab_irr x); auto. -- apply (lab_irr y). eapply lab_lt_trans; [exact E2|]. apply A2; auto.
          * assert (y = x) by (apply lab_total; auto). subst y. cbn. rewrite IH by (auto; lia). split; [tauto|].
            intros [[<-|H1] [H2|H2]]; auto.
    Qed.
    Lemma set_inter_sorted : forall k a b, lsorted a -> lsorted b -> length a + length b <= k -> lsorted (set_inter k a b).
    Proof.
      induction k as [|k IH]; intros a b Ha Hb Hk; [constructor|]. cbn. destruct a as [|x a]; [constructor|]. destruct b as [|y b]; [constructor|].
      inversion Ha as [|? ? A1 A2]; subst. inversion Hb as [|? ? B1 B2]; subst. cbn in Hk.
      destruct (lab_ltb x y); [apply IH; auto; cbn; lia|]. destruct (lab_ltb y x); [apply IH; auto; cbn; lia|].
      constructor; [apply IH; auto; lia|]. apply Forall_forall. intros z Hz. apply set_inter_In in Hz; auto; [|lia]. rewrite Forall_forall in A2. apply A2; tauto.
    Qed.
    Lemma label_inter_spec : forall i i' f f' l, In l (label_inter (labels_between F i i') (labels_between S f f')) <-> EF i l i' /\ ES f l f'.
    Proof.
      intros. unfold label_inter. rewrite set_inter_In by (auto using labels_between_sorted). rewrite !labels_between_In. tauto.
    Qed.
    Lemma label_inter_sorted : forall i i' f f', lsorted (label_inter (labels_between F i i') (labels_between S f f')).
    Proof. intros. apply set_inter_sorted; auto using labels_between_sorted. Qed.

    Lemma proper_spec : forall ls, lsorted ls -> has_proper_label ls = true <-> exists x, In (Some x) ls.
    Proof.
      intros ls H. unfold has_proper_label. destruct ls as [|l ls _] using rev_ind.
      - cbn. split; [discriminate|intros [x []]].
      - rewrite rev_unit, app_length. cbn [length]. assert (K: forall z, In z ls -> lab_lt z l).
        { clear - H. induction ls as [|y ls IH]; cbn in *; [tauto|]. inversion H as [|? ? H1 H2]; subst. intros z [<-|Hz]; auto.
          rewrite Forall_forall in H2. apply H2. apply in_or_app; right; left; auto. }
        destruct l as [x|].
        + split; [intros _; exists x; apply in_or_app; right; left; auto|]. intros _. apply Nat.ltb_lt. lia.
        + rewrite Nat.ltb_lt. split.
          * intros L. destruct ls as [|[z|] ls]; [cbn in L; lia|exists z; left; auto|]. exfalso. apply (lab_irr None). apply K. left; auto.
          * intros [x Hx]. apply in_app_or in Hx. destruct Hx as [Hx|[Hx|[]]]; [|discriminate]. destruct ls; [destruct Hx|cbn; lia].
    Qed.

    Definition is_some (l : option nat) : bool := match l with Some _ => true | None => false end.
    Lemma add_labels_filter : forall ls pr top id, pr_add_labels pr top id ls = ofold (fun pr l => pr_add_edge pr top l id) (filter is_some ls) pr.
    Proof.
      induction ls as [|[l|] ls IH]; intros; unfold pr_add_labels in *; cbn; auto. destruct (pr_add_edge pr top (Some l) id); cbn; auto.
    Qed.

    Definition closed_at (pr : prod_st) (id : nat) : Prop := forall a b l a' b', pair pr id = Some (a, b) -> joint EF ES a b l a' b' -> has pr id l a' b'.
    Lemma closed_ext : forall pr pr' id, ext pr pr' -> (exists x, pair pr id = Some x) -> closed_at pr id -> closed_at pr' id.
    Proof.
      intros pr pr' id X [[a0 b0] HP] H a b l a' b' H1 H2. assert (K := ext_pair _ _ _ _ X HP). rewrite K in H1. inversion H1; subst. eapply has_ext; eauto.
    Qed.

    (** ** One iteration *)
    Lemma eps_loop_spec : forall ET flip pr0 w0 top a b s, LI pr0 w0 s -> pair pr0 top = Some (a, b) ->
      exists r, eloop (pr_eps_body n back ET flip F S top a b) (if flip then tos F a else tos S b) s = Some r /\
        match r with
        | inr p => found ET pr0 p
        | inl s' => LI pr0 w0 s' /\ le s s' /\ forall t, (if flip then EF a None t else ES b None t) ->
            has (fst s') top None (if flip then t else a) (if flip then b else t)
        end.
    Proof.
      intros ET flip pr0 w0 top a b s HI HP.
      destruct (eloop_rule _ _ _ (pr_eps_body n back ET flip F S top a b) (LI pr0 w0) le
         (fun t s => (if flip then EF a None t else ES b None t) -> has (fst s) top None (if flip then t else a) (if flip then b else t)) (found ET pr0)) with
         (l := if flip then tos F a else tos S b) (s := s) as [r [E H]]; auto.
      - intros; apply ext_refl.
      - intros; eapply ext_trans; eauto.
      - intros x s1 s2 _ H1 H2 H3. eapply has_ext; eauto.
      - intros [pr w] t _ HI'. assert (HP' := HI'). destruct HP' as [_ [X _]]. apply (ext_pair _ _ _ _ X) in HP as HPr.
        unfold pr_eps_body. cbn [fst snd].
        assert (Hc: has_label (if flip then F else S) (if flip then a else b) t None = true <-> (if flip then EF a None t else ES b None t)) by (destruct flip; apply has_label_spec).
        destruct (has_label (if flip then F else S) (if flip then a else b) t None).
        + assert (He: if flip then EF a None t else ES b None t) by (apply Hc; auto).
          destruct (target_spec ET pr0 w0 (pr, w) top a b (if flip then t else a) (if flip then b else t) [None] HI' HPr) as [p1 [fr [id [E1 [p2 [E2 H]]]]]].
          { intros l [<-|[]]. cbn. destruct flip; auto. } { discriminate. }
          cbn [fst snd] in *. rewrite E1. cbn [obind fst snd]. cbn [ofold] in E2.
          destruct (pr_add_edge p1 top None id) as [p2'|] eqn:Ea; [|discriminate]. cbn in E2. inversion E2; subst p2'. cbn [obind].
          eexists; split; [reflexivity|]. destruct (pr_finish ET p2 w fr id); auto. destruct H as [H1 [H2 H3]]. ands; auto. intros _. apply H3. left; auto.
        + exists (inl (pr, w)); split; [reflexivity|]. ands; auto. { apply ext_refl. } intros He. apply Hc in He. discriminate.
      - exists r. split; auto. destruct r as [s'|p]; auto. destruct H as [H1 [H2 H3]]. ands; auto. intros t Ht. apply H3; auto.
        destruct flip; apply tos_In; eauto; [apply WF|apply WS].
    Qed.

    Lemma pair_loop_spec : forall ET pr0 w0 top a b s, LI pr0 w0 s -> pair pr0 top = Some (a, b) ->
      exists r, eloop (fun s i_to => eloop (pr_pair_body n back ET F S top a b i_to) (tos S b) s) (tos F a) s = Some r /\
        match r with
        | inr p => found ET pr0 p
        | inl s' => LI pr0 w0 s' /\ le s s' /\ forall x a' b', EF a (Some x) a' -> ES b (Some x) b' -> has (fst s') top (Some x) a' b'
        end.
    Proof.
      intros ET pr0 w0 top a b s HI HP.
      assert (MQ: forall i t (s1 s2 : ploop), LI pr0 w0 s1 -> le s1 s2 -> (forall x, EF a (Some x) i -> ES b (Some x) t -> has (fst s1) top (Some x) i t) ->
                    (forall x, EF a (Some x) i -> ES b (Some x) t -> has (fst s2) top (Some x) i t)).
      { intros i t s1 s2 _ L H x H1 H2. eapply has_ext; eauto. }
      destruct (eloop_rule _ _ _ (fun s i_to => eloop (pr_pair_body n back ET F S top a b i_to) (tos S b) s) (LI pr0 w0) le
         (fun i s => forall t, In t (tos S b) -> forall x, EF a (Some x) i -> ES b (Some x) t -> has (fst s) top (Some x) i t) (found ET pr0)) with
         (l := tos F a) (s := s) as [r [E H]]; auto.
      - intros; apply ext_refl.
      - intros; eapply ext_trans; eauto.
      - intros i s1 s2 H0 H1 H2 t Ht. apply (MQ i t s1 s2); auto.
      - intros s1 i _ HI1. apply (eloop_rule _ _ _ (pr_pair_body n back ET F S top a b i) (LI pr0 w0) le
           (fun t s => forall x, EF a (Some x) i -> ES b (Some x) t -> has (fst s) top (Some x) i t) (found ET pr0)); auto.
        + intros; apply ext_refl.
        + intros; eapply ext_trans; eauto.
        + intros x s2 s3 K1 K2 K3. apply (MQ i x s2 s3); auto.
        + intros [pr w] t _ HI'. assert (HP' := HI'). destruct HP' as [_ [X _]]. apply (ext_pair _ _ _ _ X) in HP as HPr.
          unfold pr_pair_body. cbn [fst snd]. set (ls := label_inter (labels_between F a i) (labels_between S b t)).
          assert (Hls: forall l, In l ls <-> EF a l i /\ ES b l t) by (intros; apply label_inter_spec).
          assert (Hpr := proper_spec ls (label_inter_sorted _ _ _ _)). destruct (has_proper_label ls).
          * destruct (target_spec ET pr0 w0 (pr, w) top a b i t (filter is_some ls) HI' HPr) as [p1 [fr [id [E1 [p2 [E2 H]]]]]].
            { intros l Hl. apply filter_In in Hl. destruct Hl as [Hl Hs]. destruct l as [x|]; [|discriminate]. apply Hls in Hl. exact Hl. }
            { destruct (proj1 Hpr eq_refl) as [x Hx]. intros E0. assert (K: In (Some x) (filter is_some ls)) by (apply filter_In; auto). rewrite E0 in K. destruct K. }
            cbn [fst snd] in *. rewrite E1. cbn [obind fst snd]. rewrite add_labels_filter, E2. cbn [obind].
            eexists; split; [reflexivity|]. destruct (pr_finish ET p2 w fr id); auto. destruct H as [H1 [H2 H3]]. ands; auto.
            intros x K1 K2. apply H3. apply filter_In. split; auto. apply Hls; auto.
          * exists (inl (pr, w)); split; [reflexivity|]. ands; auto. { apply ext_refl. } intros x K1 K2. exfalso.
            assert (K: false = true) by (apply Hpr; exists x; apply Hls; auto). discriminate.
      - exists r. split; auto. destruct r as [s'|p]; auto. destruct H as [H1 [H2 H3]]. ands; auto. intros x a' b' K1 K2.
        apply H3; auto; apply tos_In; eauto; [apply WF|apply WS].
    Qed.

    Lemma LI_start : forall pr w, pbase pr -> LI pr w (pr, w).
    Proof. intros. unfold LI. cbn [fst snd]. ands; auto using ext_refl. rewrite Nat.sub_diag. auto. Qed.

    Lemma expand_spec : forall ET pr w top, pbase pr -> top < psz pr ->
      exists r, pr_expand n back ET F S top (pr, w) = Some r /\
        match r with
        | inr p => found ET pr p
        | inl s' => LI pr w s' /\ closed_at (fst s') top
        end.
    Proof.
      intros ET pr w top B Ht. destruct (proj1 (pair_lt pr top (pb_0 _ B)) Ht) as [[a b] HP]. unfold pr_expand. cbn [fst snd]. rewrite HP. cbn [obind fst snd].
      destruct (pair_range _ _ _ _ (pb_0 _ B) HP) as [Ra Rb]. apply Nat.ltb_lt in Ra, Rb. rewrite Ra, Rb. cbn [andb].
      destruct (eps_loop_spec ET true pr w top a b (pr, w) (LI_start pr w B) HP) as [[s1|p1] [E1 H1]]; rewrite E1; cbn [obind]; [|eexists; split; [reflexivity|auto]].
      destruct H1 as [I1 [L1 C1]].
      destruct (eps_loop_spec ET false pr w top a b s1 I1 HP) as [[s2|p2] [E2 H2]]; rewrite E2; cbn [obind]; [|eexists; split; [reflexivity|auto]].
      destruct H2 as [I2 [L2 C2]].
      destruct (pair_loop_spec ET pr w top a b s2 I2 HP) as [[s3|p3] [E3 H3]]; rewrite E3; (eexists; split; [reflexivity|]); auto.
      destruct H3 as [I3 [L3 C3]]. split; auto. intros a0 b0 l a' b' H HJ.
      assert (K: pair (fst s3) top = Some (a, b)) by (eapply ext_pair; [apply I3|auto]). rewrite K in H. inversion H; subst a0 b0.
      destruct l as [x|]; cbn in HJ.
      - destruct HJ. apply C3; auto.
      - destruct HJ as [[HJ ->]|[HJ ->]].
        + eapply has_ext; [|apply (C1 a' HJ)]. eapply ext_trans; eauto.
        + eapply has_ext; [|apply (C2 b' HJ)]. auto.
    Qed.

    Lemma ids_bound : forall pr, pbase0 pr -> length (pr_ids pr) <= a_size F * a_size S.
    Proof.
      intros pr B. rewrite <- (seq_length (a_size F) 0), <- (seq_length (a_size S) 0), <- prod_length. apply NoDup_incl_length; [apply B|].
      intros [a b] H. apply (pb_ids _ B) in H. apply in_prod; apply in_seq; lia.
    Qed.

    Lemma construct_spec : forall ET fuel pr w, pbase pr -> (forall id, In id w -> id < psz pr) ->
      (forall id, id < psz pr -> In id w \/ closed_at pr id) -> length w + (a_size F * a_size S - length (pr_ids pr)) <= fuel ->
      exists b pr', pr_construct n fuel back ET F S pr w = Some (b, pr') /\ pbase pr' /\ ext pr pr' /\ b = has_accepting pr' /\
        ((b = false \/ ET = false) -> forall id, id < psz pr' -> closed_at pr' id).
    Proof.
      intros ET fuel; induction fuel as [|fuel IH]; intros pr w B Hw Hc Hf; destruct w as [|top w]; cbn [pr_construct].
      1,3: exists (has_accepting pr), pr; ands; auto using ext_refl; intros _ id Hid; destruct (Hc id Hid) as [[]|]; auto.
      - cbn in Hf. lia.
      - destruct (expand_spec ET pr w top B) as [[[p1 w1]|p1] [E1 H1]]; [apply Hw; left; auto|..]; rewrite E1; cbn [obind].
        + destruct H1 as [[B1 [X1 [Z1 W1]]] C1]. cbn [fst snd] in *.
          destruct (IH p1 w1) as [bb [p2 [E2 [B2 [X2 [Hb H2]]]]]]; auto.
          * intros id Hid. subst w1. apply in_app_or in Hid. destruct Hid as [Hid|Hid].
            -- apply in_rev in Hid. apply in_seq in Hid. lia.
            -- assert (id < psz pr) by (apply Hw; right; auto). lia.
          * intros id Hid. subst w1. destruct (Nat.lt_ge_cases id (psz pr)) as [L|L].
            -- destruct (Hc id L) as [[->|Hi]|Hcl]; auto; [left; apply in_or_app; auto|]. right. eapply closed_ext; eauto. apply (pair_lt pr id (pb_0 _ B)); auto.
            -- left. apply in_or_app. left. apply -> in_rev. apply in_seq. lia.
          * subst w1. rewrite app_length, rev_length, seq_length. assert (S0 := pb_size _ (pb_0 _ B)). assert (S1 := pb_size _ (pb_0 _ B1)).
            assert (L1 := ids_bound _ (pb_0 _ B1)). cbn in Hf. unfold psz in *. lia.
          * exists bb, p2. ands; auto. eapply ext_trans; eauto.
        + destruct H1 as [HE [B1 [X1 HA]]]. exists true, p1. ands; auto. intros [K|K]; [discriminate|congruence].
    Qed.

    Lemma initialize_spec : forall ET pr, pbase pr -> exists b pr', initialize_product n back ET F S pr = Some (b, pr') /\ pbase pr' /\ ext pr pr' /\
      b = has_accepting pr' /\ ((b = false \/ ET = false) -> forall id, id < psz pr' -> closed_at pr' id).
    Proof.
      intros ET pr B. unfold initialize_product. apply construct_spec; auto.
      - intros id H. apply in_rev in H. apply in_seq in H. unfold psz. lia.
      - intros id H. left. apply -> in_rev. apply in_seq. unfold psz in H. lia.
      - unfold pr_fuel. lia.
    Qed.

    (** ** Adding an edge *)
    Lemma add_component_spec : forall in_first ET pr e (EF0 ES0 : edgeset), pbase pr -> (in_first = false -> back = true) ->
      (in_first = true -> EF (e_src e) (e_lab e) (e_dst e) /\ (forall x y z, EF x y z -> EF0 x y z \/ (x = e_src e /\ y = e_lab e /\ z = e_dst e)) /\ (forall x y z, ES x y z -> ES0 x y z)) ->
      (in_first = false -> ES (e_src e) (e_lab e) (e_dst e) /\ (forall x y z, ES x y z -> ES0 x y z \/ (x = e_src e /\ y = e_lab e /\ z = e_dst e)) /\ (forall x y z, EF x y z -> EF0 x y z)) ->
      (forall id a b l a' b', pair pr id = Some (a, b) -> joint EF0 ES0 a b l a' b' -> has pr id l a' b') ->
      exists b pr', pr_add_component_edge n in_first back ET F S pr e = Some (b, pr') /\ pbase pr' /\ ext pr pr' /\ b = has_accepting pr' /\
        ((b = false \/ ET = false) -> forall id, id < psz pr' -> closed_at pr' id).
    Proof.
      intros in_first ET pr e EF0 ES0 B Hbk H1 H2 Hcl. unfold pr_add_component_edge.
      set (other := if in_first then S else F). set (from := e_src e).
      set (fs := nth from (if in_first then pr_fast pr else pr_back pr) [] ++ (if Nat.ltb from n then [(from, from)] else [])).
      set (EO := if in_first then ES else EF).
      assert (WO: aut_wf other) by (unfold other; destruct in_first; auto).
      assert (EOe: aut_edges other = EO) by (unfold other, EO; destruct in_first; auto).
      assert (HeC: if in_first then EF from (e_lab e) (e_dst e) else ES from (e_lab e) (e_dst e)).
      { destruct in_first; [apply H1|apply H2]; auto. }
      (* the product states with component [from] *)
      assert (Hfs: forall o id, In (o, id) fs <-> pair pr id = Some (if in_first then (from, o) else (o, from))).
      { intros o id. unfold fs. rewrite in_app_iff.
        assert (Hf: In (o, id) (nth from (if in_first then pr_fast pr else pr_back pr) []) <-> n <= id /\ pair pr id = Some (if in_first then (from, o) else (o, from))).
        { destruct in_first; [apply (pb_fast _ (pb_0 _ B))|apply (pb_back _ (pb_0 _ B)); auto]. }
        rewrite Hf. split.
        - intros [[_ H]|H]; auto. destruct (Nat.ltb_spec from n); [|destruct H]. destruct H as [H|[]]. assert (o = from) by congruence. assert (id = from) by congruence. subst o id. unfold pr_pair. destruct (Nat.ltb_spec from n); [|lia].
          destruct in_first; auto.
        - intros H. destruct (Nat.lt_ge_cases id n) as [L|L]; [right|left; auto]. unfold pr_pair in H. apply Nat.ltb_lt in L as L'. rewrite L' in H.
          assert (from = id /\ o = id) by (destruct in_first; inversion H; auto). destruct H0 as [-> ->]. rewrite L'. left; auto. }
      assert (Hother: forall o id, In (o, id) fs -> o < a_size other).
      { intros o id H. apply Hfs in H. unfold other. destruct in_first; apply (pair_range _ _ _ _ (pb_0 _ B)) in H; tauto. }
      destruct (eloop_rule _ _ _ (fun s (x : nat * nat) =>
           if Nat.ltb (fst x) (a_size other) then
             eloop (pr_target_body n in_first back ET F S (e_lab e) (e_dst e) (snd x))
               (match e_lab e with None => [fst x] | Some l => filter (fun t => has_label other (fst x) t (Some l)) (tos other (fst x)) end) s
           else None) (LI pr []) le
         (fun x s => forall ot, (match e_lab e with None => ot = fst x | Some l => EO (fst x) (Some l) ot end) ->
             has (fst s) (snd x) (e_lab e) (if in_first then e_dst e else ot) (if in_first then ot else e_dst e)) (found ET pr)) with (l := fs) (s := (pr, @nil nat)) as [r [E H]].
      - intros; apply ext_refl.
      - intros; eapply ext_trans; eauto.
      - intros x s s' _ L H ot Ho. eapply has_ext; eauto.
      - intros s [o id] Hin HI. cbn [fst snd]. assert (Ho := Hother _ _ Hin). apply Nat.ltb_lt in Ho. rewrite Ho. apply Hfs in Hin.
        destruct (eloop_rule _ _ _ (pr_target_body n in_first back ET F S (e_lab e) (e_dst e) id) (LI pr []) le
          (fun ot s => has (fst s) id (e_lab e) (if in_first then e_dst e else ot) (if in_first then ot else e_dst e)) (found ET pr)) with
          (l := match e_lab e with None => [o] | Some l => filter (fun t => has_label other o t (Some l)) (tos other o) end) (s := s) as [r [E H]]; auto.
        + intros; apply ext_refl.
        + intros; eapply ext_trans; eauto.
        + intros x s1 s2 _ L H. eapply has_ext; eauto.
        + intros [p1 w1] ot Hot HI1. unfold pr_target_body. cbn [fst snd].
          assert (HP1: pair p1 id = Some (if in_first then (from, o) else (o, from))) by (eapply ext_pair; [apply HI1|auto]).
          assert (HJ: joint EF ES (if in_first then from else o) (if in_first then o else from) (e_lab e) (if in_first then e_dst e else ot) (if in_first then ot else e_dst e)).
          { destruct (e_lab e) as [l|] eqn:El; cbn.
            - apply filter_In in Hot. destruct Hot as [_ Hot]. apply has_label_spec in Hot. rewrite EOe in Hot. unfold EO in Hot. destruct in_first; auto.
            - destruct Hot as [<-|[]]. destruct in_first; auto. }
          assert (HP1': pair p1 id = Some (if in_first then from else o, if in_first then o else from)) by (destruct in_first; auto).
          assert (HJ': forall l, In l [e_lab e] -> joint EF ES (if in_first then from else o) (if in_first then o else from) l (if in_first then e_dst e else ot) (if in_first then ot else e_dst e)).
          { intros l [<-|[]]. exact HJ. }
          destruct (target_spec ET pr [] (p1, w1) id _ _ _ _ [e_lab e] HI1 HP1' HJ')
            as [p2 [fr [id' [E1 [p3 [E2 H]]]]]]; [discriminate|].
          cbn [fst snd] in *. rewrite E1. cbn [obind fst snd]. cbn [ofold] in E2.
          destruct (pr_add_edge p2 id (e_lab e) id') as [p2'|] eqn:Ea; [|discriminate]. cbn in E2. inversion E2; subst p2'. cbn [obind].
          eexists; split; [reflexivity|]. destruct (pr_finish ET p3 w1 fr id'); auto. destruct H as [K1 [K2 K3]]. ands; auto. apply K3. left; auto.
        + exists r. split; auto. destruct r as [s'|p]; auto. destruct H as [K1 [K2 K3]]. ands; auto. intros ot Hot. apply K3.
          destruct (e_lab e) as [l|]; [|left; auto]. rewrite <- EOe in Hot. apply filter_In. split; [apply tos_In; [apply WO|eauto]|apply has_label_spec; auto].
      - apply LI_start; auto.
      - rewrite E. cbn [obind]. destruct r as [[p1 w1]|p1].
        + destruct H as [[B1 [X1 [Z1 W1]]] [_ H]]. cbn [fst snd] in *. rewrite app_nil_r in W1.
          destruct (construct_spec ET (pr_fuel F S w1) p1 w1) as [bb [p2 [E2 [B2 [X2 [Hb H3]]]]]]; auto.
          * intros id Hid. subst w1. apply in_rev in Hid. apply in_seq in Hid. lia.
          * intros id Hid. destruct (Nat.lt_ge_cases id (psz pr)) as [L|L].
            -- right. intros a b l a' b' HP HJ. apply (pair_lt pr id (pb_0 _ B)) in L. destruct L as [[a1 b1] HP0].
               assert (K := ext_pair _ _ _ _ X1 HP0). rewrite K in HP. inversion HP; subst a1 b1.
               assert (C: joint EF0 ES0 a b l a' b' \/ (l = e_lab e /\ (if in_first then a = from /\ a' = e_dst e else b = from /\ b' = e_dst e) /\
                          match e_lab e with None => (if in_first then b' = b else a' = a) | Some x => if in_first then EO b (Some x) b' else EO a (Some x) a' end)).
               { unfold EO. destruct in_first.
                 - destruct (H1 eq_refl) as [_ [K1 K2]]. destruct l as [x|]; cbn in HJ |- *.
                   + destruct HJ as [J1 J2]. destruct (K1 _ _ _ J1) as [J3|[J3 [J4 J5]]]; [left; auto|]. right. rewrite <- J4. ands; auto.
                   + destruct HJ as [[J1 ->]|[J1 ->]]; [|left; right; auto]. destruct (K1 _ _ _ J1) as [J3|[J3 [J4 J5]]]; [left; auto|]. right. rewrite <- J4. ands; auto.
                 - destruct (H2 eq_refl) as [_ [K1 K2]]. destruct l as [x|]; cbn in HJ |- *.
                   + destruct HJ as [J1 J2]. destruct (K1 _ _ _ J2) as [J3|[J3 [J4 J5]]]; [left; auto|]. right. rewrite <- J4. ands; auto.
                   + destruct HJ as [[J1 ->]|[J1 ->]]; [left; left; auto|]. destruct (K1 _ _ _ J1) as [J3|[J3 [J4 J5]]]; [left; auto|]. right. rewrite <- J4. ands; auto. }
               destruct C as [C|[-> [C1 C2]]]; [eapply has_ext; [exact X1|]; eapply Hcl; eauto|].
               destruct in_first.
               ++ destruct C1 as [-> ->]. apply (H (b, id)); [apply Hfs; auto|]. cbn [fst]. destruct (e_lab e); auto.
               ++ destruct C1 as [-> ->]. apply (H (a, id)); [apply Hfs; auto|]. cbn [fst]. destruct (e_lab e); auto.
            -- left. subst w1. apply -> in_rev. apply in_seq. lia.
          * unfold pr_fuel. lia.
          * exists bb, p2. ands; auto. eapply ext_trans; eauto.
        + destruct H as [HE [B1 [X1 HA]]]. exists true, p1. ands; auto. intros [K|K]; [discriminate|congruence].
    Qed.

    (** ** Languages *)
    Lemma has_accepting_spec : forall pr, has_accepting pr = true <-> exists id, aut_final (pr_aut pr) id.
    Proof.
      intros pr. unfold has_accepting, aut_final. rewrite existsb_exists. split.
      - intros [b [H ->]]. apply In_nth_error in H. auto.
      - intros [id H]. exists true. split; auto. eapply nth_error_In; eauto.
    Qed.

    Lemma product_path : forall pr, pbase0 pr -> forall id w id', apath (aut_edges (pr_aut pr)) id w id' -> forall a b, pair pr id = Some (a, b) ->
      exists a' b', pair pr id' = Some (a', b') /\ apath EF a w a' /\ apath ES b w b'.
    Proof.
      intros pr B id w id' H. induction H as [q|q l q1 w q2 He Hp IH|q q1 w q2 He Hp IH]; intros a b HP.
      - exists a, b. ands; auto; constructor.
      - destruct (pb_edges _ B _ _ _ He) as [a0 [b0 [a1 [b1 [P0 [P1 [J1 J2]]]]]]]. rewrite HP in P0. inversion P0; subst a0 b0.
        destruct (IH a1 b1 P1) as [a' [b' [K1 [K2 K3]]]]. exists a', b'. ands; auto; eapply ap_lab; eauto.
      - destruct (pb_edges _ B _ _ _ He) as [a0 [b0 [a1 [b1 [P0 [P1 J]]]]]]. rewrite HP in P0. inversion P0; subst a0 b0.
        destruct (IH a1 b1 P1) as [a' [b' [K1 [K2 K3]]]]. exists a', b'. cbn in J. destruct J as [[J ->]|[J ->]]; ands; auto; eapply ap_eps; eauto.
    Qed.

    Lemma has_accepting_sound : forall pr, pbase pr -> has_accepting pr = true ->
      exists c, lang n EF (aut_final F) c /\ lang n ES (aut_final S) c.
    Proof.
      intros pr [B R] H. apply has_accepting_spec in H. destruct H as [id H].
      assert (L: id < psz pr) by (apply nth_error_lt in H; auto). destruct (R id L) as [p [w [Hp Hw]]].
      assert (PP: pair pr p = Some (p, p)) by (unfold pr_pair; apply Nat.ltb_lt in Hp; rewrite Hp; auto).
      destruct (product_path pr B _ _ _ Hw _ _ PP) as [a [b [K1 [K2 K3]]]]. apply (pb_acc _ B _ _ _ K1) in H. destruct H as [F1 F2].
      exists (p, w). split; (split; auto); cbn; eauto.
    Qed.

    Lemma joint_path : forall pr, (forall id, id < psz pr -> closed_at pr id) -> pbase0 pr ->
      forall a w f, apath EF a w f -> forall b g, apath ES b w g -> forall id, pair pr id = Some (a, b) -> exists id', pair pr id' = Some (f, g).
    Proof.
      intros pr C B. assert (ST: forall id a b l a' b', pair pr id = Some (a, b) -> joint EF ES a b l a' b' -> exists id', pair pr id' = Some (a', b')).
      { intros id a b l a' b' H HJ. destruct (C id) with (2 := H) (3 := HJ) as [id' [K _]]; eauto. apply (pair_lt pr id B); eauto. }
      assert (EP: forall b w g, apath ES b w g -> forall a id, w = [] -> pair pr id = Some (a, b) -> exists id', pair pr id' = Some (a, g)).
      { intros b w g H. induction H as [q|q l q1 w q2 He Hp IH|q q1 w q2 He Hp IH]; intros a id Hw HP; eauto; [discriminate|].
        destruct (ST id a q None a q1 HP) as [id1 HP1]; [right; auto|]. eapply IH; eauto. }
      intros a w f H. induction H as [q|q l q1 w q2 He Hp IH|q q1 w q2 He Hp IH]; intros b g Hb id HP.
      - eapply EP; eauto.
      - remember (l :: w) as lw eqn:Elw. revert id HP. induction Hb as [b|b l' b1 w' g Hbe Hbp _|b b1 w' g Hbe Hbp IHb]; intros id HP; [discriminate| |].
        + inversion Elw; subst l' w'. destruct (ST id q b (Some l) q1 b1 HP) as [id1 HP1]; [split; auto|]. eapply IH; eauto.
        + destruct (ST id q b None q b1 HP) as [id1 HP1]; [right; auto|]. eapply IHb; eauto.
      - destruct (ST id q b None q1 b HP) as [id1 HP1]; [left; auto|]. eapply IH; eauto.
    Qed.

    Lemma has_accepting_complete : forall pr, pbase pr -> (forall id, id < psz pr -> closed_at pr id) ->
      (exists c, lang n EF (aut_final F) c /\ lang n ES (aut_final S) c) -> has_accepting pr = true.
    Proof.
      intros pr [B R] C [[p w] [[Hp [f [P1 F1]]] [_ [g [P2 F2]]]]]. cbn in *.
      assert (PP: pair pr p = Some (p, p)) by (unfold pr_pair; apply Nat.ltb_lt in Hp; rewrite Hp; auto).
      destruct (joint_path pr C B _ _ _ P1 _ _ P2 _ PP) as [id HP]. apply has_accepting_spec. exists id. apply (pb_acc _ B _ _ _ HP). auto.
    Qed.

    Lemma pr_new_spec : forall ord, (forall q l, Permutation (ord q l) l) -> exists pr, pr_new n ord F S = Some pr /\ pbase pr /\ psz pr = n.
    Proof.
      intros ord Ho. unfold pr_new. apply Nat.leb_le in HF as HF', HS as HS'. rewrite HF', HS'. cbn [andb]. eexists; split; [reflexivity|].
      set (accs := map (fun ab : bool * bool => fst ab && snd ab) (combine (firstn n (a_acc F)) (firstn n (a_acc S)))).
      assert (L: length accs = n). { unfold accs. rewrite map_length, combine_length, !firstn_length. unfold a_size in *. lia. }
      assert (PP: forall id ab, pair (mk_prod (mk_aut accs [] ord) [] [] []) id = Some ab -> id < n /\ ab = (id, id)).
      { intros id ab H. unfold pr_pair in H. destruct (Nat.ltb_spec id n); [inversion H; auto|]. cbn in H. destruct (id - n); discriminate. }
      split; [|exact L]. constructor; [constructor|].
      - unfold psz, a_size. cbn. lia.
      - constructor.
      - intros a b [].
      - intros id a b H. apply PP in H. destruct H as [H1 H2]. inversion H2; subst a b. unfold aut_final. cbn [a_acc pr_aut]. unfold accs.
        assert (La: id < length (a_acc F)) by (unfold a_size in *; lia). assert (Lb: id < length (a_acc S)) by (unfold a_size in *; lia).
        destruct (nth_error_ex _ _ _ La) as [x Ex]. destruct (nth_error_ex _ _ _ Lb) as [y Ey]. rewrite Ex, Ey.
        assert (G: forall (u v : list bool) m i, i < m -> nth_error u i = Some x -> nth_error v i = Some y ->
          nth_error (map (fun ab : bool * bool => fst ab && snd ab) (combine (firstn m u) (firstn m v))) i = Some (x && y)).
        { induction u as [|u0 u IH]; intros [|v0 v] [|m] [|i] Hi E1 E2; cbn in *; try lia; try discriminate. { congruence. } apply IH; auto. lia. }
        rewrite (G _ _ n id H1 Ex Ey). destruct x, y; cbn; intuition congruence.
      - intros a b id. cbn. split; [destruct a; intros []|]. intros [H1 H2]. apply PP in H2. lia.
      - intros _ a b id. cbn. split; [destruct b; intros []|]. intros [H1 H2]. apply PP in H2. lia.
      - intros q l. apply Ho.
      - intros id l id' [].
      - intros id H. exists id, []. split; [unfold psz, a_size in H; cbn [a_acc pr_aut] in H; lia|constructor].
    Qed.
  End Components.

  (** The invariant survives changes of the components that keep the states and only add edges or states. *)
  Lemma pbase_mono : forall back F S F' S' pr, pbase F S back pr ->
    (forall x y z, aut_edges F x y z -> aut_edges F' x y z) -> (forall x y z, aut_edges S x y z -> aut_edges S' x y z) ->
    a_size F <= a_size F' -> a_size S <= a_size S' ->
    (forall q, q < a_size F -> nth_error (a_acc F') q = nth_error (a_acc F) q) -> (forall q, q < a_size S -> nth_error (a_acc S') q = nth_error (a_acc S) q) ->
    n <= a_size F -> n <= a_size S -> pbase F' S' back pr.
  Proof.
    intros back F S F' S' pr [B R] H1 H2 L1 L2 A1 A2 N1 N2. constructor; auto. pose proof B as B'. destruct B'. constructor; auto.
    - intros a b H. apply pb_ids0 in H. ands; try lia; tauto.
    - intros id a b H. rewrite (pb_acc0 _ _ _ H). destruct (pair_range F S back N1 N2 pr id a b B H) as [K1 K2]. unfold aut_final. rewrite A1, A2 by auto. tauto.
    - intros id l id' H. destruct (pb_edges0 _ _ _ H) as [a [b [a' [b' [K1 [K2 K3]]]]]]. exists a, b, a', b'. ands; auto.
      destruct l; cbn in *; [destruct K3; auto|]. destruct K3 as [[K ->]|[K ->]]; auto.
  Qed.
End Product.
