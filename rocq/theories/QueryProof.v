(** Correctness of accepts, accept_path and find_path. *)
From Coq Require Import List Arith Lia Bool Permutation Sorted.
From Verif Require Import Base BaseFacts Spec SpecFacts PdaModel AutModel AutProof SolverModel QueryModel.
Import ListNotations.

(** Edges connect existing states, the iteration order only permutes. *)
Record aut_wf (A : aut) : Prop := {
  aw_ord : wf_ord A;
  aw_range : forall q l q', aut_edges A q l q' -> q < a_size A /\ q' < a_size A }.

Lemma has_label_spec : forall A q t l, has_label A q t l = true <-> aut_edges A q l t.
Proof.
  intros. unfold has_label. rewrite existsb_exists, <- labels_between_In. split.
  - intros [x [H1 H2]]. apply lab_eqb_eq in H2. subst; auto.
  - intros H. exists l. split; auto. apply lab_eqb_eq; auto.
Qed.

Lemma aw_acc : forall A q l t, aut_wf A -> aut_edges A q l t -> exists b, accepting A t = Some b.
Proof. intros A q l t W H. apply (aw_range _ W) in H. unfold accepting. apply nth_error_ex. apply H. Qed.

(** ** Paths as lists *)
Lemma spath_snoc : forall E qs q ls l t, spath E (qs ++ [q]) ls -> E q l t -> spath E ((qs ++ [q]) ++ [t]) (ls ++ [l]).
Proof.
  intros E qs; induction qs as [|q0 qs IH]; intros q ls l t H He.
  - cbn in *. inversion H; subst. cbn. repeat constructor; auto.
  - cbn in H. destruct qs as [|q1 qs]; cbn in *.
    + inversion H as [|a b c d e H1 H2]; subst. cbn. constructor; auto; apply (IH q e l t); auto.
    + inversion H as [|a b c d e H1 H2]; subst. cbn. constructor; auto; apply (IH q e l t); auto.
Qed.

Lemma spath_length : forall E qs ls, spath E qs ls -> length qs = S (length ls).
Proof. intros E qs ls H; induction H; cbn in *; auto. Qed.

Lemma spath_apath : forall E qs ls, spath E qs ls -> forall d, apath E (hd d qs) (word ls) (last qs d).
Proof.
  intros E qs ls H d; induction H as [q|q l q' qs ls He Hp IH]; [constructor|].
  change (last (q :: q' :: qs) d) with (last (q' :: qs) d). destruct l; cbn; [eapply ap_lab|eapply ap_eps]; eauto.
Qed.

Lemma apath_spath : forall E q w f, apath E q w f -> exists qs ls, spath E (q :: qs) ls /\ word ls = w /\ last (q :: qs) 0 = f.
Proof.
  intros E q w f H; induction H as [q|q l q1 w f He Hp [qs [ls [H1 [H2 H3]]]]|q q1 w f He Hp [qs [ls [H1 [H2 H3]]]]].
  - exists [], []. ands; auto. constructor.
  - exists (q1 :: qs), (Some l :: ls). ands; [constructor; auto|rewrite <- H2; reflexivity|auto].
  - exists (q1 :: qs), (None :: ls). ands; [constructor; auto|auto|auto].
Qed.

Lemma word_map_Some : forall w, word (map Some w) = w.
Proof. induction w as [|x w IH]; auto. cbn. f_equal. exact IH. Qed.

Lemma spath_npath : forall E qs w, spath E qs (map Some w) -> forall d, npath E (hd d qs) w (last qs d).
Proof.
  intros E qs w; revert qs; induction w as [|x w IH]; intros qs H d; inversion H as [|q l q' qs' ls He Hp]; subst; cbn [hd].
  - constructor.
  - change (last (q :: q' :: qs') d) with (last (q' :: qs') d). econstructor; eauto. apply (IH _ Hp).
Qed.

(** ** Loops *)
Lemma eloop_app : forall S A R (f : S -> A -> option (S + R)) l1 l2 s,
  eloop f (l1 ++ l2) s = match eloop f l1 s with Some (inl s') => eloop f l2 s' | r => r end.
Proof. induction l1 as [|a l1 IH]; intros; cbn; auto. destruct (f s a) as [[s'|r]|]; auto. Qed.

  Fixpoint desc (m : nat) (l : list nat) : Prop := match l with [] => True | x :: l' => x <= m /\ desc x l' end.

  Lemma desc_le : forall l m m', desc m l -> m <= m' -> desc m' l.
  Proof. destruct l; cbn; auto. intros m m' [H1 H2] H. split; auto. lia. Qed.
  Lemma desc_In : forall l m x, desc m l -> In x l -> x <= m.
  Proof. induction l as [|y l IH]; cbn; intros m x H Hi; [destruct Hi|]. destruct H as [H1 H2]. destruct Hi as [->|H]; auto. specialize (IH _ _ H2 H). lia. Qed.

  Lemma firstn_upd : forall X (l : list X) i j x, j <= i -> firstn j (upd l i x) = firstn j l.
  Proof. induction l as [|a l IH]; intros [|i] [|j] x H; cbn; auto; try lia. rewrite IH by lia. auto. Qed.
  Lemma firstn_S_upd : forall X (l : list X) i x, i < length l -> firstn (i + 1) (upd l i x) = firstn i l ++ [x].
  Proof. induction l as [|a l IH]; intros [|i] x H; cbn in *; try lia; auto. rewrite IH by lia. auto. Qed.
  Lemma firstn_S_nth : forall X (l : list X) i x, nth_error l i = Some x -> firstn (i + 1) l = firstn i l ++ [x].
  Proof. induction l as [|a l IH]; intros [|i] x H; cbn in *; try discriminate; auto. congruence. rewrite (IH i x); auto. Qed.
  Lemma skipn_nth : forall X (l : list X) i x, nth_error l i = Some x -> skipn i l = x :: skipn (i + 1) l.
  Proof.
    induction l as [|a l IH]; intros [|i] x H; cbn in *; try discriminate; auto. congruence.
  Qed.


Section Accept.
  Variable A : aut.
  Hypothesis W : aut_wf A.
  Variable stack : list nat.
  Let len := length stack.
  Let E := aut_edges A.

  Lemma ap_loop_push : forall q i l path ts ws, i + 1 < len ->
    eloop (accept_path_body A stack q i l path) ts ws =
    Some (inl (rev (map (fun t => (t, i + 1)) (filter (fun t => has_label A q t (Some l)) ts)) ++ ws)).
  Proof.
    intros q i l path ts; induction ts as [|t ts IH]; intros ws Hi; cbn [eloop filter]; auto.
    unfold accept_path_body at 1. destruct (has_label A q t (Some l)).
    - apply Nat.ltb_lt in Hi as Hi'. fold len. rewrite Hi'. rewrite IH by auto. cbn. rewrite <- app_assoc. auto.
    - apply IH; auto.
  Qed.

  Lemma ap_loop_last : forall q i l path ts ws, len <= i + 1 -> (forall t, In t ts -> has_label A q t (Some l) = true -> exists b, accepting A t = Some b) ->
    (exists t, In t ts /\ has_label A q t (Some l) = true /\ accepting A t = Some true /\
       eloop (accept_path_body A stack q i l path) ts ws = Some (inr (upd path (i + 1) t))) \/
    ((forall t, In t ts -> has_label A q t (Some l) = true -> accepting A t = Some false) /\
       eloop (accept_path_body A stack q i l path) ts ws = Some (inl ws)).
  Proof.
    intros q i l path ts; induction ts as [|t ts IH]; intros ws Hi Hb; cbn [eloop].
    - right. split; auto. intros t [].
    - assert (Hn: Nat.ltb (i + 1) (length stack) = false) by (apply Nat.ltb_ge; auto).
      assert (IH' := IH ws Hi (fun t' H' => Hb t' (or_intror H'))).
      assert (K: (has_label A q t (Some l) = true -> accepting A t = Some false) ->
        accept_path_body A stack q i l path ws t = Some (inl ws) ->
        (exists t0, In t0 (t :: ts) /\ has_label A q t0 (Some l) = true /\ accepting A t0 = Some true /\
           eloop (accept_path_body A stack q i l path) ts ws = Some (inr (upd path (i + 1) t0))) \/
        ((forall t0, In t0 (t :: ts) -> has_label A q t0 (Some l) = true -> accepting A t0 = Some false) /\
           eloop (accept_path_body A stack q i l path) ts ws = Some (inl ws))).
      { intros Ht _. destruct IH' as [[t0 [H1 [H2 [H3 H4]]]]|[H1 H2]].
        - left. exists t0. ands; auto. right; auto.
        - right. split; auto. intros t0 [<-|H0]; auto. }
      unfold accept_path_body at 1 3. rewrite Hn. destruct (has_label A q t (Some l)) eqn:Eh.
      + destruct (Hb t (or_introl eq_refl) Eh) as [b Eb]. rewrite Eb. cbn [obind]. destruct b.
        * left. exists t. ands; auto. left; auto.
        * apply K; auto. unfold accept_path_body. rewrite Hn, Eh, Eb. reflexivity.
      + apply K; [discriminate|]. unfold accept_path_body. rewrite Eh. reflexivity.
  Qed.

  (** accepts and accept_path run in lockstep. *)
  Lemma accepts_accept_path : forall fuel path ws, length path = len + 1 ->
    accepts_loop A stack fuel ws =
    match accept_path_loop A stack fuel path ws with
    | None => None | Some None => Some None
    | Some (Some p) => done (match p with [] => false | _ => true end) end.
  Proof.
    induction fuel as [|fuel IH]; intros path ws Hp; destruct ws as [|[q i] ws]; cbn [accepts_loop accept_path_loop]; auto.
    destruct (Nat.ltb q (a_size A)); auto. destruct (nth_error stack i) as [l|]; cbn [obind]; auto.
    assert (G: forall ts ws0, match eloop (accept_path_body A stack q i l (upd path i q)) ts ws0 with
       | None => eloop (accepts_body A stack q i l) ts ws0 = None
       | Some (inl ws1) => eloop (accepts_body A stack q i l) ts ws0 = Some (inl ws1)
       | Some (inr p) => eloop (accepts_body A stack q i l) ts ws0 = Some (inr true) /\ p <> [] end).
    { assert (B: forall ws0 t, match accept_path_body A stack q i l (upd path i q) ws0 t with
         | None => accepts_body A stack q i l ws0 t = None
         | Some (inl ws1) => accepts_body A stack q i l ws0 t = Some (inl ws1)
         | Some (inr p) => accepts_body A stack q i l ws0 t = Some (inr true) /\ p <> [] end).
      { intros ws0 t. unfold accept_path_body, accepts_body. destruct (has_label A q t (Some l)); auto.
        destruct (Nat.ltb (i + 1) (length stack)); auto. destruct (accepting A t) as [[|]|]; cbn [obind]; auto. split; auto.
        intros H. apply (f_equal (@length nat)) in H. rewrite !upd_length in H. cbn in H. lia. }
      induction ts as [|t ts IHt]; intros ws0; cbn [eloop]; auto. specialize (B ws0 t).
      destruct (accept_path_body A stack q i l (upd path i q) ws0 t) as [[ws1|p]|].
      - rewrite B. apply IHt.
      - destruct B as [B Bn]. rewrite B. auto.
      - rewrite B. auto. }
    specialize (G (tos A q) ws). destruct (eloop (accept_path_body A stack q i l (upd path i q)) (tos A q) ws) as [[ws1|p]|].
    - rewrite G. cbn [obind]. apply IH. rewrite upd_length; auto.
    - destruct G as [G Hnil]. rewrite G. cbn. destruct p; auto. contradiction.
    - rewrite G. reflexivity.
  Qed.

  Definition ok (q i : nat) : Prop := exists f, npath E q (skipn i stack) f /\ aut_final A f.
  Variable st0 : nat.
  Definition elem_ok (path : list nat) (x : nat * nat) : Prop :=
    snd x < len /\ fst x < a_size A /\ spath E (firstn (snd x) path ++ [fst x]) (map Some (firstn (snd x) stack)) /\
    hd 0 (firstn (snd x) path ++ [fst x]) = st0.
  Definition weight (ws : list (nat * nat)) : nat := fold_right (fun x a => Nat.pow (S (a_size A)) (len - snd x) + a) 0 ws.

  Lemma weight_app : forall a b, weight (a ++ b) = weight a + weight b.
  Proof. induction a as [|x a IH]; intros; cbn [app weight fold_right]; auto. fold (weight (a ++ b)). fold (weight a). rewrite IH. lia. Qed.

  Lemma tos_bound : forall q, length (tos A q) <= a_size A.
  Proof.
    intros q. rewrite <- (seq_length (a_size A) 0). apply NoDup_incl_length; [apply tos_NoDup, W|].
    intros t Ht. apply tos_In in Ht; [|apply W]. destruct Ht as [l Ht]. apply (aw_range _ W) in Ht. apply in_seq. lia.
  Qed.

  Definition good (p : list nat) : Prop := spath E p (map Some stack) /\ hd 0 p = st0 /\ aut_final A (last p 0).

  Lemma ap_step : forall q i ws path l, nth_error stack i = Some l -> length path = len + 1 ->
    elem_ok path (q, i) -> Forall (elem_ok path) ws -> desc i (map snd ws) ->
    (exists p, eloop (accept_path_body A stack q i l (upd path i q)) (tos A q) ws = Some (inr p) /\ good p) \/
    (exists ws', eloop (accept_path_body A stack q i l (upd path i q)) (tos A q) ws = Some (inl ws') /\
      Forall (elem_ok (upd path i q)) ws' /\ (exists m, desc m (map snd ws')) /\ weight ws' < weight ((q, i) :: ws) /\
      ((exists q' i', In (q', i') ((q, i) :: ws) /\ ok q' i') -> (exists q' i', In (q', i') ws' /\ ok q' i'))).
  Proof.
    intros q i ws path l El Hp HE HF HD. destruct HE as [HE1 [HE2 [HE3 HE4]]]. cbn [fst snd] in *.
    assert (HF': Forall (elem_ok (upd path i q)) ws).
    { apply Forall_forall. intros [q' i'] Hin. rewrite Forall_forall in HF. destruct (HF _ Hin) as [K1 [K2 [K3 K4]]]. cbn [fst snd] in *.
      assert (i' <= i) by (eapply desc_In; eauto; apply (in_map snd) in Hin; auto).
      unfold elem_ok; cbn [fst snd]. rewrite firstn_upd by auto. auto. }
    assert (Hnew: forall t, E q (Some l) t -> spath E (firstn (i + 1) (upd path i q) ++ [t]) (map Some (firstn (i + 1) stack)) /\
                    hd 0 (firstn (i + 1) (upd path i q) ++ [t]) = st0).
    { intros t Ht. rewrite firstn_S_upd by lia. rewrite (firstn_S_nth _ _ _ _ El), map_app. cbn [map]. split.
      - apply spath_snoc; auto.
      - rewrite <- HE4. destruct (firstn i path); auto. }
    assert (Hok: ok q i <-> exists t, E q (Some l) t /\ (if Nat.ltb (i + 1) len then ok t (i + 1) else aut_final A t)).
    { unfold ok. rewrite (skipn_nth _ _ _ _ El). split.
      - intros [f [Hn Hf]]. inversion Hn as [|a b t c d He Hr]; subst. exists t. split; auto.
        destruct (Nat.ltb_spec (i + 1) len) as [L|L]; [exists f; auto|]. rewrite skipn_all2 in Hr by auto. inversion Hr; subst; auto.
      - intros [t [He Ht]]. destruct (Nat.ltb_spec (i + 1) len) as [L|L].
        + destruct Ht as [f [Hr Hf]]. exists f. split; auto. econstructor; eauto.
        + exists t. split; auto. econstructor; eauto. rewrite skipn_all2 by auto. constructor. }
    destruct (Nat.ltb_spec (i + 1) len) as [L|L].
    - right. rewrite ap_loop_push by auto. eexists; split; [reflexivity|].
      set (nw := map (fun t => (t, i + 1)) (filter (fun t => has_label A q t (Some l)) (tos A q))).
      assert (Hnw: forall x, In x nw <-> snd x = i + 1 /\ E q (Some l) (fst x)).
      { intros [t j]. unfold nw. rewrite in_map_iff. cbn. split.
        - intros [t' [Et Hin]]. inversion Et; subst. apply filter_In in Hin. split; auto. apply has_label_spec. tauto.
        - intros [-> He]. exists t. split; auto. apply filter_In. split; [apply tos_In; [apply W|eauto]|apply has_label_spec; auto]. }
      assert (D0: forall l0 m, (forall x, In x l0 -> snd x = i + 1) -> i + 1 <= m -> desc m (map snd (l0 ++ ws))).
      { induction l0 as [|x l0 IH]; intros m Hx Hm; cbn; [eapply desc_le; eauto; lia|].
        assert (snd x = i + 1) by (apply Hx; left; auto). split; [lia|]. apply IH; [|lia]. intros; apply Hx; right; auto. }
      ands.
      + apply Forall_app. split; auto. apply Forall_rev. apply Forall_forall. intros [t j] Hx. apply Hnw in Hx. cbn in Hx. destruct Hx as [-> Hx].
        unfold elem_ok. cbn [fst snd]. destruct (Hnew _ Hx) as [N1 N2]. ands; auto. apply (aw_range _ W) in Hx. tauto.
      + exists (i + 1). apply D0; auto. intros x Hx. apply in_rev in Hx. apply Hnw in Hx. tauto.
      + rewrite weight_app. cbn [weight fold_right snd]. fold (weight ws).
        assert (Hw: weight (rev nw) <= length nw * Nat.pow (S (a_size A)) (len - (i + 1))).
        { rewrite <- (rev_length nw). assert (Hr: forall x, In x (rev nw) -> snd x = i + 1) by (intros x Hx; apply in_rev in Hx; apply Hnw in Hx; tauto).
          revert Hr. generalize (rev nw). induction l0 as [|x l0 IH]; intros Hr; [cbn; lia|]. cbn [weight fold_right length]. fold (weight l0).
          rewrite (Hr x) by (left; auto). assert (weight l0 <= length l0 * S (a_size A) ^ (len - (i + 1))) by (apply IH; intros; apply Hr; right; auto). lia. }
        assert (Hb: length nw <= a_size A). { unfold nw. rewrite map_length. etransitivity; [apply filter_length_le'|apply tos_bound]. }
        replace (len - i) with (S (len - (i + 1))) by lia. cbn [Nat.pow].
        assert (0 < Nat.pow (S (a_size A)) (len - (i + 1))) by (apply Nat.neq_0_lt_0, Nat.pow_nonzero; lia).
        set (x := Nat.pow (S (a_size A)) (len - (i + 1))) in *. nia.
      + intros [q' [i' [[H|H] Ho]]].
        * inversion H; subst. apply Hok in Ho. destruct Ho as [t [He Ht]]. exists t, (i' + 1). split; auto.
          apply in_or_app; left. apply -> in_rev. apply Hnw. auto.
        * exists q', i'. split; auto. apply in_or_app; auto.
    - destruct (ap_loop_last q i l (upd path i q) (tos A q) ws L) as [[t [H1 [H2 [H3 H4]]]]|[H1 H2]].
      { intros t _ Ht. apply has_label_spec in Ht. eapply aw_acc; eauto. }
      + left. eexists; split; [exact H4|]. apply has_label_spec in H2. destruct (Hnew _ H2) as [N1 N2].
        assert (El': firstn (i + 1) stack = stack) by (apply firstn_all2; auto).
        assert (Ep: upd (upd path i q) (i + 1) t = firstn (i + 1) (upd path i q) ++ [t]).
        { assert (Hlen: i + 1 < length (upd path i q)) by (rewrite upd_length; lia).
          rewrite <- (firstn_S_upd _ (upd path i q) (i + 1) t Hlen). symmetry. apply firstn_all2. rewrite !upd_length. lia. }
        rewrite Ep. unfold good. rewrite El' in N1. ands; auto. rewrite last_last. exact H3.
      + right. exists ws. ands; auto.
        * exists i; auto.
        * cbn [weight fold_right snd]. fold (weight ws). assert (0 < Nat.pow (S (a_size A)) (len - i)) by (apply Nat.neq_0_lt_0, Nat.pow_nonzero; lia). lia.
        * intros [q' [i' [[H|H] Ho]]]; [|eauto]. inversion H; subst. apply Hok in Ho. destruct Ho as [t [He Ht]].
          exfalso. assert (K := H1 t). unfold aut_final in Ht. unfold accepting in K. rewrite Ht in K.
          discriminate K. apply tos_In; [apply W|eauto]. apply has_label_spec; auto.
  Qed.

  Lemma ap_loop_spec : forall fuel path ws, length path = len + 1 -> Forall (elem_ok path) ws -> (exists m, desc m (map snd ws)) ->
    (accept_path_loop A stack fuel path ws = Some None \/
     exists p, accept_path_loop A stack fuel path ws = done p /\
       (good p \/ (p = [] /\ ~ exists q i, In (q, i) ws /\ ok q i))) /\
    (weight ws <= fuel -> accept_path_loop A stack fuel path ws <> Some None).
  Proof.
    induction fuel as [|fuel IH]; intros path ws Hp HF [m HD]; destruct ws as [|[q i] ws]; cbn [accept_path_loop].
    1,3: split; [right; exists []; split; auto; right; split; auto; intros [q [i [[] _]]]|discriminate].
    - split; auto. cbn [weight fold_right snd]. assert (0 < Nat.pow (S (a_size A)) (len - i)) by (apply Nat.neq_0_lt_0, Nat.pow_nonzero; lia). lia.
    - inversion HF as [|x y HE HF']; subst. assert (HE' := HE). destruct HE' as [HE1 [HE2 _]]. cbn [fst snd] in *.
      apply Nat.ltb_lt in HE2. rewrite HE2. destruct (nth_error_ex _ _ _ HE1) as [l El]. rewrite El. cbn [obind].
      cbn in HD. destruct HD as [_ HD]. destruct (ap_step q i ws path l El Hp HE HF' HD) as [[p [E1 G]]|[ws' [E1 [G1 [G2 [G3 G4]]]]]]; rewrite E1; cbn [obind].
      + split; [right; exists p; auto|discriminate].
      + destruct (IH (upd path i q) ws') as [I1 I2]; auto. { rewrite upd_length; auto. } split.
        * destruct I1 as [I1|[p [I1 I3]]]; auto. right. exists p. split; auto. destruct I3 as [I3|[I3 I4]]; auto. right. split; auto.
        * intros Hf. apply I2. lia.
  Qed.
End Accept.

Section AcceptTop.
  Variable A : aut.
  Hypothesis W : aut_wf A.

  Lemma accept_path_spec : forall fuel q w, q < a_size A ->
    (accept_path A fuel q w = Some None \/
     exists p, accept_path A fuel q w = done p /\
       ((spath (aut_edges A) p (map Some w) /\ hd 0 p = q /\ aut_final A (last p 0)) \/
        (p = [] /\ ~ exists f, npath (aut_edges A) q w f /\ aut_final A f))) /\
    (Nat.pow (S (a_size A)) (length w) <= fuel -> accept_path A fuel q w <> Some None).
  Proof.
    intros fuel q w Hq. unfold accept_path. destruct w as [|x w].
    - destruct (nth_error_ex _ _ _ Hq) as [b Eb]. unfold accepting. rewrite Eb. cbn [obind]. split; [|discriminate]. right.
      eexists; split; [reflexivity|]. destruct b.
      + left. ands; auto. constructor.
      + right. split; auto. intros [f [Hn Hf]]. inversion Hn; subst. unfold aut_final in Hf. congruence.
    - set (st := x :: w). destruct (ap_loop_spec A W st q fuel (repeat 0 (length st + 1)) [(q, 0)]) as [H1 H2].
      + apply repeat_length.
      + constructor; [|constructor]. unfold elem_ok. cbn [fst snd firstn app hd map]. ands; auto. { cbn; lia. } constructor.
      + exists 0. cbn. auto.
      + split.
        * destruct H1 as [H1|[p [H1 H3]]]; auto. right. exists p. split; auto. destruct H3 as [H3|[-> H3]]; auto.
          right. split; auto. intros H. apply H3. exists q, 0. split; [left; auto|]. exact H.
        * intros Hf. apply H2. cbn [weight fold_right snd]. rewrite Nat.sub_0_r. lia.
  Qed.

  Lemma accepts_is_accept_path : forall fuel q w, accepts A fuel q w =
    match accept_path A fuel q w with
    | None => None | Some None => Some None
    | Some (Some p) => done (match p with [] => false | _ => true end) end.
  Proof.
    intros fuel q w. unfold accepts, accept_path. destruct w as [|x w].
    - destruct (accepting A q) as [[|]|]; reflexivity.
    - apply accepts_accept_path. apply repeat_length.
  Qed.

  Lemma accepts_spec : forall fuel q w, q < a_size A ->
    (accepts A fuel q w = Some None \/
     exists b, accepts A fuel q w = done b /\ (b = true <-> exists f, npath (aut_edges A) q w f /\ aut_final A f)) /\
    (Nat.pow (S (a_size A)) (length w) <= fuel -> accepts A fuel q w <> Some None).
  Proof.
    intros fuel q w Hq. rewrite accepts_is_accept_path. destruct (accept_path_spec fuel q w Hq) as [[H1|[p [H1 H2]]] H3]; rewrite H1 in *.
    - split; [auto|]; intros Hf _; exact (H3 Hf eq_refl).
    - split; [|discriminate]. right. eexists; split; [reflexivity|]. destruct H2 as [[K1 [K2 K3]]|[-> K]].
      + destruct p as [|a p]; [inversion K1|]. split; auto. intros _. exists (last (a :: p) 0). split; auto.
        cbn in K2. subst a. apply (spath_npath _ _ _ K1 0).
      + split; [discriminate|]. intros H. contradiction.
  Qed.
End AcceptTop.

(** ** find_path *)
  Lemma ap_make_spec : forall S (qs : list S) d ls, length qs = 1 + length ls -> ap_make qs ls = Some (mk_apth (last qs d) (combine ls qs)).
  Proof.
    intros S qs d ls H. unfold ap_make. destruct (rev qs) as [|e qs'] eqn:E0.
    - apply (f_equal (@rev S)) in E0. rewrite rev_involutive in E0. subst. cbn in H. lia.
    - apply Nat.eqb_eq in H. rewrite H. apply (f_equal (@rev S)) in E0. rewrite rev_involutive in E0. cbn in E0.
      replace (last qs d) with e by (rewrite E0, last_last; auto). auto.
  Qed.

Section Find.
  Variable A : aut.
  Hypothesis W : aut_wf A.
  Variable n : nat.
  Hypothesis Hn : n <= a_size A.
  Let E := aut_edges A.

  Definition st3 (x : nat * nat * option nat) : nat := fst (fst x).
  Definition ix3 (x : nat * nat * option nat) : nat := snd (fst x).

  Lemma fp_body_loop : forall q i path lst ts ws0 seen0, (forall t, In t ts -> exists l, E q l t) -> NoDup seen0 ->
    (exists t l, E q l t /\ aut_final A t /\ eloop (find_path_body A q i path lst) ts (ws0, seen0) = Some (inr (upd path (i + 1) t, upd lst i l))) \/
    (exists nw, eloop (find_path_body A q i path lst) ts (ws0, seen0) = Some (inl (nw ++ ws0, map st3 nw ++ seen0)) /\
       (forall x, In x nw -> ix3 x = i + 1 /\ E q (snd x) (st3 x) /\ ~ aut_final A (st3 x)) /\
       (forall t, In t ts -> In t (map st3 nw ++ seen0)) /\ NoDup (map st3 nw ++ seen0)).
  Proof.
    intros q i path lst ts; induction ts as [|t ts IH]; intros ws0 seen0 Hts Hnd; cbn [eloop].
    - right. exists []. ands; auto; intros ? [].
    - destruct (Hts t (or_introl eq_refl)) as [l0 Hl0]. apply labels_between_In in Hl0.
      assert (Hts': forall t', In t' ts -> exists l, E q l t') by (intros; apply Hts; right; auto).
      unfold find_path_body at 1 3. destruct (labels_between A q t) as [|l ls] eqn:El; [destruct Hl0|]. cbn [snd fst].
      assert (Hl: E q l t) by (apply labels_between_In; rewrite El; left; auto).
      destruct (memb t seen0) eqn:Em.
      + apply memb_In in Em. destruct (IH ws0 seen0 Hts' Hnd) as [H|[nw [H1 [H2 [H3 H4]]]]]; [left; auto|].
        right. exists nw. ands; auto. intros t' [<-|Ht]; auto. apply in_or_app; auto.
      + assert (Hnm: ~ In t seen0) by (rewrite <- memb_In; congruence).
        destruct (aw_acc _ _ _ _ W Hl) as [b Eb]. rewrite Eb. cbn [obind]. destruct b.
        * left. exists t, l. ands; auto.
        * destruct (IH ((t, i + 1, l) :: ws0) (t :: seen0) Hts') as [H|[nw [H1 [H2 [H3 H4]]]]]; [constructor; auto|left; auto|].
          assert (Er: forall X (a : list X) x b, a ++ x :: b = (a ++ [x]) ++ b) by (intros; rewrite <- app_assoc; auto).
          right. exists (nw ++ [(t, i + 1, l)]). rewrite map_app. cbn [map st3 fst]. rewrite <- !app_assoc. cbn [app]. ands; auto.
          -- intros x Hx. apply in_app_or in Hx. destruct Hx as [Hx|[<-|[]]]; auto. cbn. ands; auto.
             unfold aut_final. unfold accepting in Eb. congruence.
          -- intros t' [<-|Ht]; auto. apply in_or_app; right; left; auto.
  Qed.

  Definition lbls (i : nat) (lst : list (option nat)) (ll : option nat) : list (option nat) :=
    match i with 0 => [] | S j => firstn j lst ++ [ll] end.
  Definition fel_ok (path : list nat) (lst : list (option nat)) (x : nat * nat * option nat) : Prop :=
    st3 x < a_size A /\ ix3 x <= length path /\ ix3 x <= length lst /\
    spath E (firstn (ix3 x) path ++ [st3 x]) (lbls (ix3 x) lst (snd x)) /\ hd 0 (firstn (ix3 x) path ++ [st3 x]) < n.

  Lemma vresize_length : forall X (d : X) k l, length (vresize d k l) = k.
  Proof. intros. unfold vresize. rewrite app_length, firstn_length, repeat_length. lia. Qed.
  Lemma firstn_vresize : forall X (d : X) k l j, j <= k -> j <= length l -> firstn j (vresize d k l) = firstn j l.
  Proof.
    intros. unfold vresize. rewrite firstn_app, firstn_firstn, firstn_length.
    replace (Nat.min j k) with j by lia. replace (j - Nat.min k (length l)) with 0 by lia. rewrite firstn_O, app_nil_r. auto.
  Qed.

  Definition fp_path (i q : nat) (path : list nat) := upd (vresize 0 (i + 2) path) i q.
  Definition fp_lst (i : nat) (ll : option nat) (lst : list (option nat)) :=
    if Nat.ltb 0 i then upd (vresize None (i + 1) lst) (i - 1) ll else vresize None (i + 1) lst.

  Lemma fp_path_length : forall i q p, length (fp_path i q p) = i + 2.
  Proof. intros. unfold fp_path. rewrite upd_length, vresize_length. auto. Qed.
  Lemma fp_lst_length : forall i q p, length (fp_lst i q p) = i + 1.
  Proof. intros. unfold fp_lst. destruct (Nat.ltb 0 i); [rewrite upd_length|]; rewrite vresize_length; auto. Qed.
  Lemma fp_path_firstn : forall i q p, i <= length p -> firstn (i + 1) (fp_path i q p) = firstn i p ++ [q].
  Proof. intros. unfold fp_path. rewrite firstn_S_upd by (rewrite vresize_length; lia). rewrite firstn_vresize by lia. auto. Qed.
  Lemma fp_path_keep : forall i q p j, j <= i -> j <= length p -> firstn j (fp_path i q p) = firstn j p.
  Proof. intros. unfold fp_path. rewrite firstn_upd by auto. apply firstn_vresize; lia. Qed.
  Lemma fp_lst_firstn : forall i ll lst, i <= length lst -> firstn i (fp_lst i ll lst) = lbls i lst ll.
  Proof.
    intros [|i] ll lst H; auto. unfold fp_lst. change (Nat.ltb 0 (S i)) with true. cbv iota.
    assert (Hv := vresize_length _ None (S i + 1) lst). assert (Hf := firstn_vresize _ None (S i + 1) lst i).
    set (v := vresize None (S i + 1) lst) in *. replace (S i - 1) with i by lia. rewrite <- Nat.add_1_r at 1.
    rewrite firstn_S_upd by lia. rewrite Hf by lia. auto.
  Qed.
  Lemma fp_lst_keep : forall i ll lst j, j <= i -> j <= length lst -> firstn (j - 1) (fp_lst i ll lst) = firstn (j - 1) lst.
  Proof.
    intros i ll lst j H1 H2. unfold fp_lst. destruct (Nat.ltb_spec 0 i).
    - rewrite firstn_upd by lia. apply firstn_vresize; lia.
    - apply firstn_vresize; lia.
  Qed.
  Lemma lbls_keep : forall i ll lst j x, j <= i -> j <= length lst -> lbls j (fp_lst i ll lst) x = lbls j lst x.
  Proof.
    intros i ll lst [|j] x H1 H2; auto. cbn. assert (K := fp_lst_keep i ll lst (S j) H1 H2). replace (S j - 1) with j in K by lia. rewrite K. auto.
  Qed.

  Record fp_inv (path : list nat) (lst : list (option nat)) (ws : list (nat * nat * option nat)) (seen : list nat) : Prop := {
    fi_ok : Forall (fel_ok path lst) ws;
    fi_desc : exists m, desc m (map ix3 ws);
    fi_nd : NoDup seen;
    fi_lt : forall q, In q seen -> q < a_size A;
    fi_acc : forall q, q < n \/ In q seen -> ~ aut_final A q;
    fi_closed : forall q, q < n \/ In q seen -> In q (map st3 ws) \/ (forall l t, E q l t -> In t seen) }.

  Definition fgood (p : list nat * list (option nat)) : Prop :=
    spath E (fst p) (snd p) /\ hd 0 (fst p) < n /\ aut_final A (last (fst p) 0).

  Lemma apath_closed : forall (R : nat -> Prop), (forall q l t, R q -> E q l t -> R t) ->
    forall q w f, apath E q w f -> R q -> R f.
  Proof. intros R HR q w f H; induction H; eauto. Qed.

  Lemma fp_loop_spec : forall fuel path lst ws seen, fp_inv path lst ws seen ->
    (find_path_loop A fuel path lst ws seen = Some None \/
     (exists p, find_path_loop A fuel path lst ws seen = done (Some p) /\ fgood p) \/
     (find_path_loop A fuel path lst ws seen = done None /\ forall q w f, q < n -> apath E q w f -> ~ aut_final A f)) /\
    (length ws + (a_size A - length seen) <= fuel -> find_path_loop A fuel path lst ws seen <> Some None).
  Proof.
    assert (K: forall path lst seen, fp_inv path lst [] seen -> forall q w f, q < n -> apath E q w f -> ~ aut_final A f).
    { intros path lst seen [_ _ _ _ H1 H2] q w f Hq Hp. apply H1.
      apply (apath_closed (fun q => q < n \/ In q seen)) with (q := q) (w := w); auto.
      intros q0 l t H0 He. destruct (H2 _ H0) as [[]|H]. right. eauto. }
    induction fuel as [|fuel IH]; intros path lst ws seen HI; destruct ws as [|[[q i] ll] ws]; cbn [find_path_loop].
    1,3: split; [right; right; split; auto; eapply K; eauto|discriminate].
    - split; auto. cbn [length]. lia.
    - assert (HI' := HI). destruct HI as [H1 H2 H3 H4 H5 H6]. inversion H1 as [|x y HE HF]; subst.
      assert (HE' := HE). unfold fel_ok in HE'. cbn [st3 ix3 fst snd] in HE'. destruct HE' as [HE1 [HE2 [HE3 [HE4 HE5]]]].
      apply Nat.ltb_lt in HE1 as HE1'. rewrite HE1'.
      change (upd (vresize 0 (i + 2) path) i q) with (fp_path i q path).
      change (if Nat.ltb 0 i then upd (vresize None (i + 1) lst) (i - 1) ll else vresize None (i + 1) lst) with (fp_lst i ll lst).
      assert (Hnew: forall l t, E q l t -> spath E (firstn (i + 1) (fp_path i q path) ++ [t]) (firstn i (fp_lst i ll lst) ++ [l]) /\
                      hd 0 (firstn (i + 1) (fp_path i q path) ++ [t]) < n).
      { intros l t Ht. rewrite fp_path_firstn, fp_lst_firstn by auto. split; [apply spath_snoc; auto|].
        destruct (firstn i path); auto. }
      destruct (fp_body_loop q i (fp_path i q path) (fp_lst i ll lst) (tos A q) ws seen) as [[t [l [Ht [Hf Eq]]]]|[nw [Eq [N1 [N2 N3]]]]]; auto.
      { intros t Ht. apply tos_In in Ht; [auto|apply W]. }
      + rewrite Eq. cbn [obind]. split; [|discriminate]. right; left. eexists; split; [reflexivity|].
        destruct (Hnew _ _ Ht) as [G1 G2].
        assert (Ep: upd (fp_path i q path) (i + 1) t = firstn (i + 1) (fp_path i q path) ++ [t]).
        { rewrite <- firstn_S_upd by (rewrite fp_path_length; lia). symmetry. apply firstn_all2. rewrite upd_length, fp_path_length. lia. }
        assert (El: upd (fp_lst i ll lst) i l = firstn i (fp_lst i ll lst) ++ [l]).
        { rewrite <- firstn_S_upd by (rewrite fp_lst_length; lia). symmetry. apply firstn_all2. rewrite upd_length, fp_lst_length. lia. }
        unfold fgood. cbn [fst snd]. rewrite Ep, El. ands; auto. rewrite last_last. auto.
      + rewrite Eq. cbn [obind]. cbn in H2. destruct H2 as [m [_ HD]].
        assert (Hle: forall x, In x ws -> ix3 x <= i) by (intros x Hx; eapply desc_In; eauto; apply (in_map ix3) in Hx; auto).
        assert (Hrng: forall x, In x nw -> st3 x < a_size A) by (intros x Hx; apply N1 in Hx; destruct Hx as [_ [Hx _]]; apply (aw_range _ W) in Hx; tauto).
        destruct (IH (fp_path i q path) (fp_lst i ll lst) (nw ++ ws) (map st3 nw ++ seen)) as [I1 I2].
        { constructor; auto.
          - apply Forall_app. split; apply Forall_forall; intros x Hx.
            + assert (Hx' := Hx). apply N1 in Hx. destruct Hx as [X1 [X2 _]]. unfold fel_ok. rewrite X1, fp_path_length, fp_lst_length.
              destruct (Hnew _ _ X2) as [G1 G2]. ands; auto; try lia. replace (i + 1) with (S i) at 2 by lia. cbn [lbls]. exact G1.
            + rewrite Forall_forall in HF. destruct (HF _ Hx) as [X1 [X2 [X3 [X4 X5]]]]. specialize (Hle _ Hx). unfold fel_ok.
              rewrite fp_path_length, fp_lst_length, fp_path_keep, lbls_keep by auto. ands; auto; lia.
          - exists (i + 1). assert (G: forall l0 m', (forall x, In x l0 -> ix3 x = i + 1) -> i + 1 <= m' -> desc m' (map ix3 (l0 ++ ws))).
            { induction l0 as [|x l0 IHl]; intros m' Hx Hm; cbn; [eapply desc_le; eauto; lia|].
              assert (ix3 x = i + 1) by (apply Hx; left; auto). split; [lia|]. apply IHl; [|lia]. intros; apply Hx; right; auto. }
            apply G; auto. intros x Hx. apply N1; auto.
          - intros q0 Hq. apply in_app_or in Hq. destruct Hq as [Hq|Hq]; auto. apply in_map_iff in Hq. destruct Hq as [x [<- Hx]]; auto.
          - intros q0 [Hq|Hq]; auto. apply in_app_or in Hq. destruct Hq as [Hq|Hq]; auto. apply in_map_iff in Hq. destruct Hq as [x [<- Hx]].
            apply N1; auto.
          - intros q0 Hq. rewrite map_app. assert (C: (q0 < n \/ In q0 seen) \/ In q0 (map st3 nw)).
            { destruct Hq as [Hq|Hq]; auto. apply in_app_or in Hq. tauto. }
            destruct C as [C|C]; [|left; apply in_or_app; auto]. destruct (H6 _ C) as [[Hd|Hd]|Hd].
            + cbn in Hd. subst q0. right. intros l t Ht. apply N2. apply tos_In; [apply W|eauto].
            + left. apply in_or_app; auto.
            + right. intros l t Ht. apply in_or_app; right. eauto. }
        split; auto. intros Hf. apply I2. rewrite !app_length, map_length. cbn [length] in Hf.
        assert (length (map st3 nw ++ seen) <= a_size A).
        { rewrite <- (seq_length (a_size A) 0). apply NoDup_incl_length; auto. intros x Hx. apply in_seq. split; [lia|].
          apply in_app_or in Hx. destruct Hx as [Hx|Hx]; [|cbn; auto]. apply in_map_iff in Hx. destruct Hx as [y [<- Hy]]. cbn; auto. }
        rewrite app_length, map_length in H. lia.
  Qed.

  Lemma first_accepting_spec : exists r, first_accepting A n = Some r /\
    match r with Some i => i < n /\ aut_final A i | None => forall i, i < n -> ~ aut_final A i end.
  Proof.
    unfold first_accepting.
    assert (G: forall l, (forall i, In i l -> i < n) -> exists r, eloop (fun (_ : unit) i => b <- accepting A i ;; Some (if (b : bool) then inr i else inl tt)) l tt = Some r /\
       match r with inr i => In i l /\ aut_final A i | inl _ => forall i, In i l -> ~ aut_final A i end).
    { induction l as [|i l IH]; intros Hl; cbn [eloop]. - eexists; split; [reflexivity|]. intros i [].
      - assert (Hi: i < n) by (apply Hl; left; auto). destruct (nth_error_ex _ (a_acc A) i) as [b Eb]; [unfold a_size in Hn; lia|].
        unfold accepting at 1. rewrite Eb. cbn [obind]. destruct b.
        + eexists; split; [reflexivity|]. split; [left; auto|exact Eb].
        + destruct IH as [r [E1 E2]]; [intros; apply Hl; right; auto|]. exists r. split; auto. destruct r as [r|r].
          * intros j [<-|Hj]; auto. unfold aut_final. congruence.
          * destruct E2; split; auto. right; auto. }
    destruct (G (seq 0 n)) as [r [E1 E2]]; [intros i Hi; apply in_seq in Hi; lia|]. rewrite E1. cbn [obind].
    destruct r as [r|r]; eexists; (split; [reflexivity|]).
    - intros i Hi. apply E2. apply in_seq. lia.
    - destruct E2 as [H1 H2]. apply in_seq in H1. split; auto. lia.
  Qed.

  Lemma find_path_spec : forall S (sm : nat -> S) fuel,
    (find_path n A sm fuel = Some None \/
     (exists qs ls, find_path n A sm fuel = done (Some (mk_apth (last (map sm qs) (sm 0)) (combine ls (map sm qs)))) /\
        spath E qs ls /\ hd 0 qs < n /\ aut_final A (last qs 0)) \/
     (find_path n A sm fuel = done None /\ forall q w f, q < n -> apath E q w f -> ~ aut_final A f)) /\
    (n + a_size A <= fuel -> find_path n A sm fuel <> Some None).
  Proof.
    intros S sm fuel. unfold find_path. destruct first_accepting_spec as [r [E1 E2]]. rewrite E1. cbn [obind]. destruct r as [i|].
    - split; [|discriminate]. right; left. exists [i], []. ands; auto; try tauto. constructor.
    - destruct (fp_loop_spec fuel [] [] (rev (map (fun i => (i, 0, None)) (seq 0 n))) []) as [H1 H2].
      { constructor.
        - apply Forall_rev, Forall_forall. intros x Hx. apply in_map_iff in Hx. destruct Hx as [i [<- Hi]]. apply in_seq in Hi.
          unfold fel_ok. cbn. ands; auto; try lia. constructor.
        - exists 0. assert (G: forall l, (forall x, In x l -> ix3 x = 0) -> desc 0 (map ix3 l)).
          { induction l as [|x l IHl]; intros Hx; cbn; auto. assert (ix3 x = 0) by (apply Hx; left; auto). split; [lia|].
            rewrite H. apply IHl. intros; apply Hx; right; auto. }
          apply G. intros x Hx. apply in_rev in Hx. apply in_map_iff in Hx. destruct Hx as [i [<- _]]. auto.
        - constructor.
        - intros q [].
        - intros q [Hq|[]]. auto.
        - intros q [Hq|[]]. left. rewrite <- map_rev, map_map. cbn. rewrite map_id. apply -> in_rev. apply in_seq. lia. }
      split.
      + destruct H1 as [H1|[[[qs ls] [H1 [G1 [G2 G3]]]]|[H1 G]]]; rewrite H1; auto. cbn [fst snd] in *. right; left. exists qs, ls.
        cbv beta iota delta [done]. rewrite (ap_make_spec _ _ (sm 0)) by (rewrite map_length; apply (spath_length _ _ _ G1)). ands; auto.
      + intros Hf Hc. apply H2. { rewrite rev_length, map_length, seq_length. cbn [length]. lia. }
        destruct (find_path_loop _ _ _ _ _ _) as [[[[p l]|]|]|]; auto; try discriminate.
        destruct (ap_make (map sm p) l); discriminate.
  Qed.
End Find.
