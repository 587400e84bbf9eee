(** Proofs about the reading of P-automata from JSON (AutJsonModel). *)
From Coq Require Import List Arith Lia Bool ZArith String Permutation.
From Verif Require Import Base BaseFacts Spec PdaModel PdaProof TrieModel RefineModel MappingProof TypedModel TypedProof AutModel AutProof NfaModel ConstructProof JsonModel JsonSpec JsonProof
  AutJsonModel AutJsonSpec.
Import ListNotations.
Open Scope string_scope.
Open Scope nat_scope.

Notation tp := (tpda string string).

(** The states of the PDA. *)
Definition known_in (T : tp) (s : sref) : bool :=
  match s with SName x => match exists_state String.eqb T x with Some _ => true | None => false end | SNum v => Nat.ltb v (pd_n (t_rules T)) end.

Section Read.
  Variables (names embedded asserts : bool) (ord : nat -> list nat -> list nat) (T0 : tp).
  Hypothesis HN : NoDup (t_states T0).
  Hypothesis HS : length (t_states T0) <= pd_n (t_rules T0).
  Let n0 := pd_n (t_rules T0).
  Notation known := (known_in T0).
  Notation step := (ah_step names embedded asserts).
  Notation exs T x := (exists_state String.eqb T x).

  Record same_pda (T : tp) : Prop := {
    sp_states : t_states T = t_states T0;
    sp_rules : pd_states (t_rules T) = pd_states (t_rules T0);
    sp_nd : NoDup (t_labels T);
    sp_n : pd_nlab (t_rules T) = length (t_labels T) }.
  Lemma same_n : forall T, same_pda T -> pd_n (t_rules T) = n0.
  Proof. intros T H. unfold pd_n. rewrite (sp_rules _ H). reflexivity. Qed.
  Lemma same_exs : forall T x, same_pda T -> exs T x = exs T0 x.
  Proof. intros T x H. unfold exists_state. rewrite (sp_states _ H). reflexivity. Qed.

  Record hok (mode : bool) (h : ah) : Prop := {
    ho_pda : same_pda (h_pda h);
    ho_size : a_size (h_aut h) = n0 + length (h_map h) + length (h_extra h);
    ho_mode : names = true -> if mode then h_extra h = [] else h_map h = [];
    ho_map0 : names = false -> h_map h = [];
    ho_map : NoDup (h_map h);
    ho_new : forall s, In s (h_map h) -> exs T0 s = None;
    ho_extra : forall v i, extra_find (h_extra h) v = Some i -> n0 <= i < a_size (h_aut h);
    ho_inj : forall v v' i, extra_find (h_extra h) v = Some i -> extra_find (h_extra h) v' = Some i -> v = v';
    ho_ord : a_ord (h_aut h) = ord;
    ho_nd : NoDup (map fst (a_edges (h_aut h))) }.

  (** Which state of the automaton a state of the document is. *)
  Definition den (h : ah) (s : sref) (i : nat) : Prop :=
    match s with
    | SName x => names = true /\ aut_exists_state h x = Some i
    | SNum v => if names then extra_find (h_extra h) v = Some i else if Nat.ltb v n0 then i = v else extra_find (h_extra h) v = Some i
    end.
  Lemma exs_lt : forall x i, exs T0 x = Some i -> i < n0.
  Proof. intros x i H. apply (tr_index_Some string String.eqb String.eqb_eq) in H. apply Nat.lt_le_trans with (length (t_states T0)); auto. apply nth_error_Some. congruence. Qed.
  Lemma den_name : forall m h x i, hok m h -> (aut_exists_state h x = Some i <-> exs T0 x = Some i \/ (exs T0 x = None /\ exists k, i = k + n0 /\ nth_error (h_map h) k = Some x)).
  Proof.
    intros m h x i H. unfold aut_exists_state. rewrite (same_exs _ _ (ho_pda _ _ H)). unfold h_n. rewrite (same_n _ (ho_pda _ _ H)). destruct (exs T0 x) as [a|].
    - split; [intros K; auto|intros [K|[K _]]; congruence].
    - unfold ts_exists. split.
      + intros K. right. split; auto. destruct (tr_index _ (h_map h) x) as [k|] eqn:E; cbn in K; [|discriminate]. exists k. split; [congruence|]. apply (tr_index_Some string String.eqb String.eqb_eq); auto.
      + intros [K|(_ & k & -> & K)]; [discriminate|]. rewrite (tr_index_nth string String.eqb String.eqb_eq _ _ k); auto. apply H.
  Qed.
  Lemma den_fun : forall h s i i', den h s i -> den h s i' -> i = i'.
  Proof. intros h [x|v] i i'; cbn; [intros [_ H] [_ H']; congruence|]. destruct names; [congruence|]. destruct (v <? n0); congruence. Qed.
  Lemma den_lt : forall m h s i, hok m h -> den h s i -> i < a_size (h_aut h).
  Proof.
    intros m h [x|v] i H; cbn.
    - intros [_ D]. apply (den_name m) in D; auto. rewrite (ho_size _ _ H). destruct D as [D|(_ & k & -> & D)]; [apply exs_lt in D; lia|]. assert (k < length (h_map h)) by (apply nth_error_Some; congruence). lia.
    - assert (E := ho_extra _ _ H v i). destruct names; [intros D; apply E; auto|]. destruct (v <? n0) eqn:L; [intros ->; apply Nat.ltb_lt in L; rewrite (ho_size _ _ H); lia|intros D; apply E; auto].
  Qed.
  Lemma den_inj : forall m h s s' i, hok m h -> den h s i -> den h s' i -> s = s'.
  Proof.
    intros m h s s' i H D D'.
    assert (NN : forall x y, aut_exists_state h x = Some i -> aut_exists_state h y = Some i -> x = y).
    { intros x y A B. apply (den_name m) in A; auto. apply (den_name m) in B; auto. destruct A as [A|(A & k & K & A')], B as [B|(B & k' & K' & B')].
      - apply (tr_index_Some string String.eqb String.eqb_eq) in A. apply (tr_index_Some string String.eqb String.eqb_eq) in B. congruence.
      - apply exs_lt in A. lia.
      - apply exs_lt in B. lia.
      - assert (k = k') by lia. congruence. }
    assert (NV : forall x v, names = true -> aut_exists_state h x = Some i -> extra_find (h_extra h) v = Some i -> False).
    { intros x v HM A B. destruct (ho_extra _ _ H v i B) as [B1 B2]. apply (den_name m) in A; auto. destruct A as [A|(_ & k & K & A)]; [apply exs_lt in A; lia|]. assert (M := ho_mode _ _ H HM). destruct m.
      - rewrite M in B. discriminate.
      - rewrite M in A. destruct k; discriminate. }
    destruct s as [x|v], s' as [y|w]; cbn in D, D'.
    - f_equal. apply NN; tauto.
    - destruct D as [HM D]. rewrite HM in D'. exfalso. eauto.
    - destruct D' as [HM D']. rewrite HM in D. exfalso. eauto.
    - f_equal. assert (EI := ho_inj _ _ H v w i). assert (E1 := ho_extra _ _ H v i). assert (E2 := ho_extra _ _ H w i). destruct names; [auto|].
      destruct (v <? n0) eqn:L1, (w <? n0) eqn:L2; auto; try apply Nat.ltb_lt in L1; try apply Nat.ltb_lt in L2; subst; try congruence; exfalso; [apply E2 in D'|apply E1 in D]; lia.
  Qed.

  (** A step that may only add states. *)
  Record ext (h h' : ah) : Prop := {
    ex_den : forall s i, den h s i -> den h' s i;
    ex_edges : a_edges (h_aut h') = a_edges (h_aut h);
    ex_acc : exists k, a_acc (h_aut h') = (a_acc (h_aut h) ++ repeat false k)%list;
    ex_sb : h_sb h' = h_sb h;
    ex_pda : h_pda h' = h_pda h;
    ex_lab : h_label h' = h_label h;
    ex_from : h_from h' = h_from h;
    ex_to : h_to h' = h_to h }.
  Lemma ext_refl : forall h, ext h h.
  Proof. intros h. constructor; auto. exists 0. cbn. rewrite app_nil_r. auto. Qed.
  Lemma number_spec : forall m h v, hok m h -> (names = true -> m = false) -> exists h' i, number_state names h v = (h', i) /\ hok m h' /\ ext h h' /\ den h' (SNum v) i.
  Proof.
    intros m h v H HM. unfold number_state. unfold h_n. rewrite (same_n _ (ho_pda _ _ H)). destruct (negb names && (v <? n0)) eqn:B.
    - exists h, v. ands; auto using ext_refl. apply andb_true_iff in B. destruct B as [B1 B2]. cbn. destruct names; [discriminate|]. rewrite B2. auto.
    - destruct (extra_find (h_extra h) v) as [i|] eqn:E.
      + exists h, i. ands; auto using ext_refl. cbn. destruct names; auto. cbn in B. rewrite B. auto.
      + eexists. eexists. split; [reflexivity|]. assert (M0 : h_map h = []). { destruct names eqn:EN; [assert (M := ho_mode _ _ H EN); rewrite HM in M; auto|apply (ho_map0 _ _ H EN)]. } split; [|split].
        * constructor; cbn [h_pda h_aut h_map h_extra h_sb]; try apply H.
          -- rewrite add_state_size, (ho_size _ _ H). cbn. lia.
          -- intros EN. rewrite HM; auto.
          -- intros w j. cbn [extra_find]. rewrite add_state_size. destruct (v =? w); [intros K; injection K as <-; rewrite (ho_size _ _ H); lia|]. intros K. apply (ho_extra _ _ H) in K. lia.
          -- intros w w' j. cbn [extra_find]. destruct (v =? w) eqn:N1, (v =? w') eqn:N2; try apply Nat.eqb_eq in N1; try apply Nat.eqb_eq in N2.
             ++ congruence.
             ++ intros K1 K2. injection K1 as <-. apply (ho_extra _ _ H) in K2. lia.
             ++ intros K1 K2. injection K2 as <-. apply (ho_extra _ _ H) in K1. lia.
             ++ apply (ho_inj _ _ H).
        * constructor; auto.
          -- intros [x|w] i; cbn; auto. intros D. assert (N : v =? w = false \/ extra_find (h_extra h) w <> Some i). { destruct (Nat.eqb_spec v w) as [->|]; auto. right. congruence. }
             destruct names; [destruct N as [->|N]; auto; congruence|]. destruct (w <? n0); auto. destruct N as [->|N]; auto; congruence.
          -- exists 1. reflexivity.
        * cbn. rewrite Nat.eqb_refl. destruct names; auto. cbn in B. rewrite B. auto.
  Qed.
  Lemma string_spec : forall m h x, hok m h -> names = true -> (m = true \/ known (SName x) = true) ->
    exists h' i, string_state names asserts h x = Some (Some (h', i)) /\ hok m h' /\ ext h h' /\ den h' (SName x) i.
  Proof.
    intros m h x H HM HK. unfold string_state. rewrite HM. destruct (aut_exists_state h x) as [i|] eqn:E.
    - exists h, i. ands; auto using ext_refl. cbn. auto.
    - assert (E0 : exs T0 x = None). { destruct (exs T0 x) eqn:E0; auto. exfalso. assert (K : aut_exists_state h x = Some n) by (apply (den_name m); auto). congruence. }
      cbn in HK. rewrite E0 in HK. destruct HK as [->|HK]; [|discriminate]. assert (M := ho_mode _ _ H HM). cbn in M.
      assert (NI : ~ In x (h_map h)). { intros I0. apply In_nth_error in I0. destruct I0 as [k K]. assert (K' : aut_exists_state h x = Some (k + n0)) by (apply (den_name true); eauto). congruence. }
      unfold ts_insert. rewrite (proj2 (tr_index_None string String.eqb String.eqb_eq (h_map h) x) NI). cbn [snd]. unfold h_n. rewrite (same_n _ (ho_pda _ _ H)).
      assert (SZ := ho_size _ _ H). rewrite M in SZ. cbn in SZ. rewrite SZ. replace (n0 + length (h_map h) + 0) with (length (h_map h) + n0) by lia. rewrite Nat.eqb_refl, andb_false_r.
      eexists. eexists. split; [reflexivity|].
      set (h' := mk_ah _ _ _ _ _ _ _ _). assert (OK : hok true h').
      { unfold h'. constructor; cbn [h_pda h_aut h_map h_extra h_sb]; try apply H.
        - rewrite add_state_size, SZ, M, app_length. cbn. lia.
        - intros EN. congruence.
        - apply NoDup_app_snoc; [apply H|auto].
        - intros s Hs. apply in_app_or in Hs. destruct Hs as [Hs|[<-|[]]]; auto. apply (ho_new _ _ H); auto.
        - rewrite M. discriminate. }
      split; [exact OK|]. split.
      + constructor; auto; [|exists 1; reflexivity]. intros [y|v] i; cbn [den]; auto. intros [_ D]. split; auto. apply (den_name true) in D; auto. apply (den_name true h'); auto. destruct D as [D|(D & k & -> & D')]; auto.
        right. split; auto. exists k. split; auto. unfold h'. cbn. rewrite nth_error_app1; auto. apply nth_error_Some. congruence.
      + split; auto. apply (den_name true h'); auto. right. split; auto. exists (length (h_map h)). split; auto. unfold h'. cbn. rewrite nth_error_app2, Nat.sub_diag; auto.
  Qed.

  (** ** What has been read *)
  Definition lden (T : tp) (lab : string) (l : option nat) : Prop :=
    if String.eqb lab "" then l = None else exists x, l = Some x /\ exists_label String.eqb T lab = Some x.
  Record rep (h : ah) (Acc : list sref) (E : list (sref * string * sref)) : Prop := {
    re_acc : forall s, In s Acc -> exists i, den h s i;
    re_ends : forall s l s', In (s, l, s') E -> (exists i, den h s i) /\ (exists i, den h s' i) /\ (l <> "" -> In l (t_labels (h_pda h)));
    re_final : forall i, aut_final (h_aut h) i <-> exists s, In s Acc /\ den h s i;
    re_edges : forall q l q', aut_edges (h_aut h) q l q' <-> exists s lab s', In (s, lab, s') E /\ den h s q /\ den h s' q' /\ lden (h_pda h) lab l;
    re_new : exists new, t_labels (h_pda h) = (t_labels T0 ++ new)%list /\ forall x, In x new -> x <> "" /\ exists s s', In (s, x, s') E }.
  Definition core (h : ah) := (h_pda h, h_aut h, h_map h, h_extra h).
  Lemma den_core : forall h h' s i, core h = core h' -> den h s i -> den h' s i.
  Proof. intros [b T A m x l f t] [b' T' A' m' x' l' f' t'] s i H. unfold core in H. cbn in H. injection H as <- <- <- <-. auto. Qed.
  Lemma hok_core : forall m h h', core h = core h' -> hok m h -> hok m h'.
  Proof. intros mo [b T A m x l f t] [b' T' A' m' x' l' f' t'] H K. unfold core in H. cbn in H. injection H as <- <- <- <-. destruct K. constructor; auto. Qed.
  Lemma rep_core : forall h h' Acc E, core h = core h' -> rep h Acc E -> rep h' Acc E.
  Proof. intros [b T A m x l f t] [b' T' A' m' x' l' f' t'] Acc E H K. unfold core in H. cbn in H. injection H as <- <- <- <-. destruct K. constructor; auto. Qed.
  Lemma ext_core : forall h h' s i, ext h h' -> den h s i -> forall j, den h' s j -> den h s j.
  Proof. intros h h' s i X D j D'. rewrite <- (den_fun _ _ _ _ (ex_den _ _ X _ _ D) D'). auto. Qed.
  Lemma final_app : forall l k i, nth_error (l ++ repeat false k)%list i = Some true <-> nth_error l i = Some true.
  Proof.
    intros l k i. destruct (Nat.lt_ge_cases i (length l)).
    - rewrite nth_error_app1; tauto.
    - rewrite nth_error_app2 by auto. split; intros K; exfalso.
      + apply nth_error_In in K. apply repeat_spec in K. discriminate.
      + apply nth_error_None in H. congruence.
  Qed.
  Lemma rep_ext : forall h h' Acc E, rep h Acc E -> ext h h' -> rep h' Acc E.
  Proof.
    intros h h' Acc E R X. destruct R as [R1 R2 R3 R4 R5]. constructor.
    - intros s Hs. destruct (R1 s Hs) as [i D]. exists i. eapply ex_den; eauto.
    - intros s l s' He. destruct (R2 _ _ _ He) as ([i D] & [i' D'] & K). rewrite (ex_pda _ _ X). split; [|split]; eauto using ex_den.
    - intros i. destruct (ex_acc _ _ X) as [k K]. unfold aut_final. rewrite K, final_app. fold (aut_final (h_aut h) i). rewrite R3. split; intros (s & Hs & D); exists s; split; auto.
      + eapply ex_den; eauto.
      + destruct (R1 s Hs) as [j Dj]. eapply ext_core; eauto.
    - intros q l q'. unfold aut_edges. rewrite (ex_edges _ _ X), (ex_pda _ _ X). fold (aut_edges (h_aut h)). rewrite R4. split; intros (s & lab & s' & He & D & D' & L); exists s, lab, s'; destruct (R2 _ _ _ He) as ([i Di] & [i' Di'] & K); ands; auto; eauto using ex_den, ext_core.
    - rewrite (ex_pda _ _ X). auto.
  Qed.
  Lemma core_set_sb : forall h b, core (h_set_sb h b) = core h.
  Proof. reflexivity. Qed.
  Lemma rep_accept : forall m h Acc E s q, hok m h -> rep h Acc E -> den h s q -> exists h', set_accepting h q = Some h' /\ hok m h' /\ rep h' (Acc ++ [s]) E /\ h_sb h' = h_sb h.
  Proof.
    intros m h Acc E s q H R D. unfold set_accepting. assert (L := den_lt _ _ _ _ H D). rewrite (proj2 (Nat.ltb_lt _ _) L). eexists. split; [reflexivity|]. split; [|split; [|reflexivity]].
    - destruct H. constructor; cbn [h_set_aut h_pda h_aut h_map h_extra h_sb a_acc a_edges a_ord]; unfold a_size in *; cbn [a_acc]; rewrite ?upd_length; auto.
    - destruct R as [R1 R2 R3 R4 R5]. constructor; auto.
      + intros s0 Hs. apply in_app_or in Hs. destruct Hs as [Hs|[<-|[]]]; eauto.
      + intros i. unfold aut_final. cbn [h_set_aut h_aut a_acc]. destruct (Nat.eq_dec q i) as [->|N].
        * rewrite nth_error_upd_eq by exact L. split; auto. intros _. exists s. split; [apply in_or_app; cbn; auto|auto].
        * rewrite nth_error_upd_neq by auto. fold (aut_final (h_aut h) i). rewrite R3. split; intros (s0 & Hs & D0); exists s0; split; auto; [apply in_or_app; auto|].
          apply in_app_or in Hs. destruct Hs as [Hs|[<-|[]]]; auto. exfalso. apply N. exact (den_fun _ _ _ _ D D0).
  Qed.
  Lemma insert_spec : forall (T : tp) l, NoDup (t_labels T) -> exists T' i, insert_label String.eqb T l = (T', i) /\ exists_label String.eqb T' l = Some i /\
    t_states T' = t_states T /\ pd_states (t_rules T') = pd_states (t_rules T) /\ NoDup (t_labels T') /\ pd_nlab (t_rules T') = length (t_labels T') /\ In l (t_labels T') /\
    (forall x i, exists_label String.eqb T x = Some i -> exists_label String.eqb T' x = Some i) /\
    (t_labels T' = t_labels T \/ t_labels T' = (t_labels T ++ [l])%list).
  Proof.
    intros T l N. unfold insert_label, ts_insert. destruct (tr_index String.eqb (t_labels T) l) as [i|] eqn:E; eexists; eexists; (split; [reflexivity|]); cbn [t_labels t_states t_rules pd_states pd_nlab snd].
    - ands; auto. apply (tr_index_Some string String.eqb String.eqb_eq) in E. eapply nth_error_In; eauto.
    - assert (NI : ~ In l (t_labels T)) by (apply (tr_index_None string String.eqb String.eqb_eq); auto). assert (N' : NoDup (t_labels T ++ [l])) by (apply NoDup_app_snoc; auto). ands; auto.
      + apply (tr_index_nth string String.eqb String.eqb_eq); auto. cbn. rewrite nth_error_app2, Nat.sub_diag; auto.
      + apply in_or_app. cbn. auto.
      + intros x i H. apply (tr_index_Some string String.eqb String.eqb_eq) in H. apply (tr_index_nth string String.eqb String.eqb_eq); auto. cbn. rewrite nth_error_app1; auto. apply nth_error_Some. congruence.
  Qed.
  Lemma lden_fun : forall T lab l l', lden T lab l -> lden T lab l' -> l = l'.
  Proof. intros T lab l l'. unfold lden. destruct (String.eqb lab ""); [congruence|]. intros (x & -> & X) (y & -> & Y). congruence. Qed.
  Lemma lden_ex : forall T lab, (lab <> "" -> In lab (t_labels T)) -> exists l, lden T lab l.
  Proof.
    intros T lab H. unfold lden. destruct (String.eqb_spec lab ""); eauto. destruct (exists_label String.eqb T lab) as [i|] eqn:E; eauto.
    exfalso. apply (tr_index_None string String.eqb String.eqb_eq) in E. auto.
  Qed.
  Lemma rep_edge : forall m h Acc E s lab s' q q', hok m h -> rep h Acc E -> den h s q -> den h s' q' -> h_label h = lab -> h_from h = Some q -> h_to h = Some q' ->
    exists h', ah_edge h = Some h' /\ hok m h' /\ rep h' Acc (E ++ [(s, lab, s')]) /\ h_sb h' = h_sb h.
  Proof.
    intros m h Acc E s lab s' q q' H R D D' HL HF HT. unfold ah_edge. rewrite HL, HF, HT. cbn [obind].
    assert (Q := den_lt _ _ _ _ H D). pose proof (ho_nd _ _ H) as ND.
    assert (COMMON : exists T' l A', (if String.eqb lab "" then A <- a_add_edge (h_aut h) q None q' TNull ;; Some (h_set_aut h A)
        else let (T, l) := insert_label String.eqb (h_pda h) lab in A <- a_add_edge (h_aut h) q (Some l) q' TNull ;; Some (h_set_pda (h_set_aut h A) T)) = Some (h_set_pda (h_set_aut h A') T') /\
        same_pda T' /\ lden T' lab l /\ (forall x i, lden (h_pda h) x i -> lden T' x i) /\ (lab <> "" -> In lab (t_labels T')) /\
        (t_labels T' = t_labels (h_pda h) \/ (lab <> "" /\ t_labels T' = (t_labels (h_pda h) ++ [lab])%list)) /\
        a_acc A' = a_acc (h_aut h) /\ a_ord A' = a_ord (h_aut h) /\ NoDup (map fst (a_edges A')) /\ forall x y z, aut_edges A' x y z <-> aut_edges (h_aut h) x y z \/ (x = q /\ y = l /\ z = q')).
    { destruct (String.eqb_spec lab "") as [EL|NL].
      - destruct (add_edge_spec (h_aut h) q None q' TNull Q ND) as (A' & E1 & E2). exists (h_pda h), None, A'. rewrite E1. cbn [obind]. ands; try apply E2; auto.
        + apply H.
        + unfold lden. rewrite EL. reflexivity.
        + intros K. contradiction.
      - destruct (insert_spec (h_pda h) lab (sp_nd _ (ho_pda _ _ H))) as (T' & i & I1 & I2 & I3 & I4 & I5 & I6 & I7 & I8 & I9). rewrite I1.
        destruct (add_edge_spec (h_aut h) q (Some i) q' TNull Q ND) as (A' & E1 & E2). exists T', (Some i), A'. rewrite E1. cbn [obind]. ands; try apply E2; auto.
        + destruct (ho_pda _ _ H). constructor; try congruence; auto.
        + unfold lden. destruct (String.eqb_spec lab ""); [contradiction|]. eauto.
        + intros x j. unfold lden. destruct (String.eqb x ""); auto. intros (y & -> & Y). eauto.
        + destruct I9; auto. }
    destruct COMMON as (T' & l & A' & -> & C1 & C2 & C3 & C4 & C5 & C6 & C7 & C8 & C9). eexists. split; [reflexivity|]. set (h' := h_set_pda _ _).
    assert (DD : forall s i, den h' s i <-> den h s i).
    { intros [x|v] i; cbn [den]; [|reflexivity]. unfold aut_exists_state. unfold h'. cbn [h_set_pda h_set_aut h_pda h_map]. unfold h_n. cbn [h_pda h_set_pda]. rewrite (same_exs T' x C1), (same_exs (h_pda h) x (ho_pda _ _ H)), (same_n T' C1), (same_n _ (ho_pda _ _ H)). reflexivity. }
    assert (SZ : a_size (h_aut h') = a_size (h_aut h)). { unfold a_size. cbn. rewrite C6. reflexivity. }
    split; [|split].
    - destruct H. constructor; rewrite ?SZ; auto. cbn. congruence.
    - destruct R as [R1 R2 R3 R4 R5].
      assert (LI : forall x, In x (t_labels (h_pda h)) -> In x (t_labels T')) by (intros x Hx; destruct C5 as [->|[_ ->]]; auto; apply in_or_app; auto).
      constructor.
      + intros a Ha. destruct (R1 a Ha) as [i Di]. exists i. apply DD. auto.
      + intros a b c Hc. apply in_app_or in Hc. destruct Hc as [Hc|[Hc|[]]].
        * destruct (R2 _ _ _ Hc) as ([i Di] & [j Dj] & Z0). ands; [exists i; apply DD; auto|exists j; apply DD; auto|auto].
        * injection Hc as <- <- <-. ands; [exists q; apply DD; auto|exists q'; apply DD; auto|auto].
      + intros i. unfold aut_final. cbn. rewrite C6. fold (aut_final (h_aut h) i). rewrite R3. split; intros (a & Ha & Da); exists a; split; auto; apply DD; auto.
      + intros x y z. change (aut_edges A' x y z <-> exists s0 lab0 s'0, In (s0, lab0, s'0) (E ++ [(s, lab, s')])%list /\ den h' s0 x /\ den h' s'0 z /\ lden T' lab0 y). rewrite C9, R4. split.
        * intros [(a & b & c & Hc & Da & Dc & Lb)|(-> & -> & ->)].
          -- exists a, b, c. ands; [apply in_or_app; auto|apply DD; auto|apply DD; auto|auto].
          -- exists s, lab, s'. ands; [apply in_or_app; cbn; auto|apply DD; auto|apply DD; auto|auto].
        * intros (a & b & c & Hc & Da & Dc & Lb). apply (DD a x) in Da. apply (DD c z) in Dc. apply in_app_or in Hc. destruct Hc as [Hc|[Hc|[]]].
          -- left. exists a, b, c. ands; auto. destruct (R2 _ _ _ Hc) as (_ & _ & Z0). destruct (lden_ex (h_pda h) b Z0) as [y0 Y0]. rewrite <- (lden_fun _ _ _ _ (C3 _ _ Y0) Lb). auto.
          -- right. injection Hc as <- <- <-. ands; [exact (den_fun _ _ _ _ Da D)|exact (lden_fun _ _ _ _ Lb C2)|exact (den_fun _ _ _ _ Dc D')].
      + destruct R5 as (new & N1 & N2). change (t_labels (h_pda h')) with (t_labels T'). destruct C5 as [->|[C5 ->]].
        * exists new. split; auto. intros x Hx. destruct (N2 x Hx) as (X & a & b & Hab). split; auto. exists a, b. apply in_or_app; auto.
        * exists (new ++ [lab])%list. split; [rewrite N1, app_assoc; auto|]. intros x Hx. apply in_app_or in Hx. destruct Hx as [Hx|[<-|[]]].
          -- destruct (N2 x Hx) as (X & a & b & Hab). split; auto. exists a, b. apply in_or_app; auto.
          -- split; auto. exists s, s'. apply in_or_app; cbn; auto.
    - reflexivity.
  Qed.

  (** ** Elements *)
  Definition refst (h : ah) (j : json) : option (option (ah * nat)) :=
    match j with
    | JStr s => string_state names asserts h s
    | JNum z => if Z.ltb z 0 then Some None else Some (Some (number_state names h (Z.to_nat z)))
    | _ => Some None
    end.
  Lemma ref_spec : forall m h j, hok m h -> ref_mode names known m j ->
    match ref_of names j with
    | Some s => exists h' i, refst h j = Some (Some (h', i)) /\ hok m h' /\ ext h h' /\ den h' s i
    | None => refst h j = Some None
    end.
  Proof.
    intros m h j H M. destruct j as [|b|z| |s|l|o]; cbn in M |- *; auto.
    - destruct (z <? 0)%Z; auto. destruct (number_spec m h (Z.to_nat z) H M) as (h' & i & -> & K). eauto.
    - destruct names eqn:EN; [rewrite <- EN; apply (string_spec m); auto|]. unfold string_state. reflexivity.
  Qed.
  Lemma acc_event : forall j h i s, ~ is_array j -> h_sb h = mk_sb ((ax_accepting_array, CArr i) :: s) ak_accepting ->
    run step (events j) h = match refst h j with None => None | Some None => Some Fail
      | Some (Some (h', q)) => match set_accepting h' q with None => None | Some h'' => ah_done h'' end end.
  Proof.
    intros j h i s NA HB. destruct j as [|b|z| |x|l|o]; cbn [events run refst]; try reflexivity.
    - destruct (z <? 0)%Z; cbn [ah_step]; [reflexivity|]. unfold ah_unsigned. rewrite HB. cbn [cur_type sb_stack obind]. destruct (number_state names h (Z.to_nat z)) as [h' q]. destruct (set_accepting h' q); reflexivity.
    - cbn [ah_step]. unfold ah_string. rewrite HB. cbn [cur_type sb_stack obind no_context]. destruct (string_state names asserts h x) as [[[h' q]|]|]; cbn [obind]; auto. destruct (set_accepting h' q); reflexivity.
    - exfalso. apply NA. exact I.
    - cbn [ah_step]. unfold ah_start_object. rewrite HB. reflexivity.
  Qed.
  Notation E3 := (sref * string * sref)%type.
  Definition P (m : bool) (Acc : list sref) (E : list E3) (h : ah) : Prop := hok m h /\ rep h Acc E.
  Lemma P_core : forall m Acc E h h', core h = core h' -> P m Acc E h -> P m Acc E h'.
  Proof. intros m Acc E h h' C [H R]. split; [eapply hok_core|eapply rep_core]; eauto. Qed.

  Lemma acc_run : forall m E j h i s L, ref_mode names known m j -> P m L E h -> h_sb h = mk_sb ((ax_accepting_array, CArr i) :: s) ak_accepting ->
    match ref_of names j with
    | Some a => exists h', run step (events j) h = Some (Go h') /\ h_sb h' = mk_sb ((ax_accepting_array, CArr (S i)) :: s) ak_accepting /\ P m (L ++ [a])%list E h'
    | None => run step (events j) h = Some Fail
    end.
  Proof.
    intros m E j h i s L M [H R] HB. assert (NA : ~ is_array j) by (destruct j; cbn; auto). rewrite (acc_event j h i s NA HB). assert (X := ref_spec m h j H M). destruct (ref_of names j) as [a|]; [|rewrite X; reflexivity].
    destruct X as (h' & q & -> & H' & X & D). destruct (rep_accept m h' L E a q H' (rep_ext _ _ _ _ R X) D) as (h2 & -> & H2 & R2 & S2). unfold ah_done. eexists. split; [reflexivity|]. cbn [h_set_sb h_sb]. rewrite S2, (ex_sb _ _ X), HB. split; [reflexivity|].
    apply (P_core m _ _ h2); [reflexivity|split; auto].
  Qed.
  (** An element of an edge. *)
  Lemma ref_event0 : forall j h s, ~ is_array j -> h_sb h = mk_sb ((ax_edge, CArr 0) :: s) ak_edges ->
    run step (events j) h = match refst h j with None => None | Some None => Some Fail
      | Some (Some (h', q)) => ah_done (h_set_edge h' (h_label h') (Some q) (h_to h')) end.
  Proof.
    intros j h s NA HB. destruct j as [|b|z| |x|l|o]; cbn [events run refst]; try reflexivity.
    - destruct (z <? 0)%Z; cbn [ah_step]; [reflexivity|]. unfold ah_unsigned. rewrite HB. cbn [cur_type cur_index sb_stack obind]. destruct (number_state names h (Z.to_nat z)) as [h' q]. reflexivity.
    - cbn [ah_step]. unfold ah_string. rewrite HB. cbn [cur_type cur_index sb_stack obind no_context]. destruct (string_state names asserts h x) as [[[h' q]|]|]; auto.
    - exfalso. apply NA. exact I.
    - cbn [ah_step]. unfold ah_start_object. rewrite HB. reflexivity.
  Qed.
  Lemma ref_event2 : forall j h s, ~ is_array j -> h_sb h = mk_sb ((ax_edge, CArr 2) :: s) ak_edges ->
    run step (events j) h = match refst h j with None => None | Some None => Some Fail
      | Some (Some (h', q)) => ah_done (h_set_edge h' (h_label h') (h_from h') (Some q)) end.
  Proof.
    intros j h s NA HB. destruct j as [|b|z| |x|l|o]; cbn [events run refst]; try reflexivity.
    - destruct (z <? 0)%Z; cbn [ah_step]; [reflexivity|]. unfold ah_unsigned. rewrite HB. cbn [cur_type cur_index sb_stack obind]. destruct (number_state names h (Z.to_nat z)) as [h' q]. reflexivity.
    - cbn [ah_step]. unfold ah_string. rewrite HB. cbn [cur_type cur_index sb_stack obind no_context]. destruct (string_state names asserts h x) as [[[h' q]|]|]; auto.
    - exfalso. apply NA. exact I.
    - cbn [ah_step]. unfold ah_start_object. rewrite HB. reflexivity.
  Qed.
  Lemma label_event : forall j h s, ~ is_array j -> h_sb h = mk_sb ((ax_edge, CArr 1) :: s) ak_edges ->
    run step (events j) h = match j with JStr x => ah_done (h_set_edge h x (h_from h) (h_to h)) | _ => Some Fail end.
  Proof.
    intros j h s NA HB. destruct j as [|b|z| |x|l|o]; cbn [events run]; try reflexivity.
    - destruct (z <? 0)%Z; cbn [ah_step]; [reflexivity|]. unfold ah_unsigned. rewrite HB. reflexivity.
    - cbn [ah_step]. unfold ah_string. rewrite HB. reflexivity.
    - exfalso. apply NA. exact I.
    - cbn [ah_step]. unfold ah_start_object. rewrite HB. reflexivity.
  Qed.
  Lemma more_event : forall j h s, ~ is_array j -> h_sb h = mk_sb ((ax_edge, CArr 3) :: s) ak_edges -> run step (events j) h = Some Fail.
  Proof.
    intros j h s NA HB. destruct j as [|b|z| |x|l|o]; cbn [events run]; try reflexivity.
    - destruct (z <? 0)%Z; cbn [ah_step]; [reflexivity|]. unfold ah_unsigned. rewrite HB. reflexivity.
    - cbn [ah_step]. unfold ah_string. rewrite HB. reflexivity.
    - exfalso. apply NA. exact I.
    - cbn [ah_step]. unfold ah_start_object. rewrite HB. reflexivity.
  Qed.
  Lemma run_bind : forall a b h, run step (a ++ b)%list h = match run step a h with Some (Go h') => run step b h' | r => r end.
  Proof. intros. apply run_app. Qed.
  Lemma edge_run : forall m Acc j h i s L, regular_edge names known m j -> P m Acc L h -> h_sb h = mk_sb ((ax_edges_array, CArr i) :: s) ak_edges ->
    match edge_of names j with
    | Some a => exists h', run step (events j) h = Some (Go h') /\ h_sb h' = mk_sb ((ax_edges_array, CArr (S i)) :: s) ak_edges /\ P m Acc (L ++ [a])%list h'
    | None => run step (events j) h = Some Fail
    end.
  Proof.
    intros m Acc j h i s L M HP HB. destruct j as [|b|z| |x|l|o]; cbn [edge_of]; try reflexivity.
    - cbn [events run]. destruct (z <? 0)%Z; cbn [ah_step]; [reflexivity|]. unfold ah_unsigned. rewrite HB. reflexivity.
    - cbn [events run ah_step]. unfold ah_string. rewrite HB. reflexivity.
    - cbn in M. destruct l as [|a [|b [|c r]]]; try contradiction. destruct M as (Ma & Mb & Mc & Mr).
      assert (NA : ~ is_array a) by (destruct a; cbn; auto). assert (NC : ~ is_array c) by (destruct c; cbn; auto).
      cbn [events run ah_step]. unfold ah_start_array. rewrite HB. cbn [no_context cur_type sb_stack obind]. unfold ah_push.
      set (h0 := h_set_sb (h_set_edge h "" None None) _). assert (B0 : h_sb h0 = mk_sb ((ax_edge, CArr 0) :: (ax_edges_array, CArr i) :: s) ak_edges) by (unfold h0; cbn [h_set_sb h_sb h_set_edge]; rewrite HB; reflexivity).
      assert (P0 : P m Acc L h0) by (apply (P_core m Acc L h); [reflexivity|auto]). clearbody h0. clear HP HB.
      cbn [flat_map]. rewrite <- !app_assoc. rewrite run_bind. rewrite (ref_event0 a h0 _ NA B0). destruct P0 as [H0 R0]. assert (X := ref_spec m h0 a H0 Ma).
      destruct (ref_of names a) as [sa|]; [|rewrite X; destruct b; destruct r; cbn [obind]; reflexivity]. destruct X as (h1 & q & -> & H1 & X1 & D1). unfold ah_done.
      assert (R1 := rep_ext _ _ _ _ R0 X1).
      set (h1' := h_set_sb _ _). assert (B1 : h_sb h1' = mk_sb ((ax_edge, CArr 1) :: (ax_edges_array, CArr i) :: s) ak_edges) by (unfold h1'; cbn [h_set_sb h_sb h_set_edge]; rewrite (ex_sb _ _ X1), B0; reflexivity).
      assert (C1 : core h1 = core h1') by reflexivity. assert (F1 : h_from h1' = Some q) by reflexivity. clearbody h1'.
      apply (hok_core m h1 h1' C1) in H1. apply (rep_core h1 h1' _ _ C1) in R1. apply (den_core h1 h1' _ _ C1) in D1. clear C1 X1 h1.
      rewrite run_bind. rewrite (label_event b h1' _ Mb B1). destruct b as [|b|z| |lab|l|o]; cbn [obind]; try reflexivity. unfold ah_done.
      set (h2 := h_set_sb _ _). assert (B2 : h_sb h2 = mk_sb ((ax_edge, CArr 2) :: (ax_edges_array, CArr i) :: s) ak_edges) by (unfold h2; cbn [h_set_sb h_sb h_set_edge]; rewrite B1; reflexivity).
      assert (C2 : core h1' = core h2) by reflexivity. assert (F2 : h_from h2 = Some q) by exact F1. assert (L2 : h_label h2 = lab) by reflexivity. clearbody h2.
      apply (hok_core m h1' h2 C2) in H1. apply (rep_core h1' h2 _ _ C2) in R1. apply (den_core h1' h2 _ _ C2) in D1. clear C2 F1 B1 h1'.
      rewrite run_bind. rewrite (ref_event2 c h2 _ NC B2). assert (X := ref_spec m h2 c H1 Mc). destruct (ref_of names c) as [sc|]; [|rewrite X; destruct r; reflexivity].
      destruct X as (h3 & q' & -> & H3 & X3 & D3). unfold ah_done. assert (R3 := rep_ext _ _ _ _ R1 X3). apply (ex_den _ _ X3) in D1.
      set (h3' := h_set_sb _ _). assert (B3 : h_sb h3' = mk_sb ((ax_edge, CArr 3) :: (ax_edges_array, CArr i) :: s) ak_edges) by (unfold h3'; cbn [h_set_sb h_sb h_set_edge]; rewrite (ex_sb _ _ X3), B2; reflexivity).
      assert (C3 : core h3 = core h3') by reflexivity. assert (F3 : h_from h3' = Some q) by (unfold h3'; cbn [h_set_sb h_set_edge h_from]; rewrite (ex_from _ _ X3); auto).
      assert (L3 : h_label h3' = lab) by (unfold h3'; cbn [h_set_sb h_set_edge h_label]; rewrite (ex_lab _ _ X3); auto). assert (G3 : h_to h3' = Some q') by reflexivity. clearbody h3'.
      apply (hok_core m h3 h3' C3) in H3. apply (rep_core h3 h3' _ _ C3) in R3. apply (den_core h3 h3' _ _ C3) in D1. apply (den_core h3 h3' _ _ C3) in D3. clear C3 X3 h3 X3.
      destruct r as [|e r]; cbn [flat_map app obind].
      + destruct (rep_edge m h3' Acc L sa lab sc q q' H3 R3 D1 D3 L3 F3 G3) as (h4 & E4 & H4 & R4 & B4).
        cbn [run ah_step]. unfold ah_end_array. rewrite B3. cbn [no_context cur_type sb_stack obind]. rewrite E4. cbn [obind]. rewrite B4, B3. cbn [pop_context sb_stack obind]. unfold ah_done.
        eexists. split; [reflexivity|]. split; [reflexivity|]. apply (P_core m _ _ h4); [reflexivity|split; auto].
      + inversion_clear Mr as [|? ? Ne Nr]. rewrite <- app_assoc, run_bind, (more_event e h3' _ Ne B3). reflexivity.
    - cbn [events run ah_step]. unfold ah_start_object. rewrite HB. reflexivity.
  Qed.
  (** An initial state. *)
  Definition init_ok (x : json) : bool :=
    match x with
    | JStr s => names && known (SName s)
    | JNum z => negb names && Z.leb 0 z && known (SNum (Z.to_nat z))
    | _ => false
    end.
  Lemma init_run : forall m Acc E j h i s (L : list unit), ~ is_array j -> P m Acc E h -> h_sb h = mk_sb ((ax_initial_array, CArr i) :: s) ak_initial ->
    match (if init_ok j then Some tt else None) with
    | Some a => exists h', run step (events j) h = Some (Go h') /\ h_sb h' = mk_sb ((ax_initial_array, CArr (S i)) :: s) ak_initial /\ P m Acc E h'
    | None => run step (events j) h = Some Fail
    end.
  Proof.
    intros m Acc E j h i s L NA [H R] HB. destruct j as [|b|z| |x|l|o]; cbn [init_ok]; try reflexivity.
    - cbn [events run]. assert (ZZ : (0 <=? z)%Z = negb (z <? 0)%Z) by (rewrite Z.leb_antisym; reflexivity). rewrite ZZ. destruct (z <? 0)%Z; cbn [ah_step negb]; [rewrite andb_false_r; reflexivity|]. unfold ah_unsigned. rewrite HB. cbn [cur_type sb_stack obind].
      destruct names; cbn [negb andb]; [reflexivity|]. unfold h_n. rewrite (same_n _ (ho_pda _ _ H)). cbn [known_in]. fold n0. destruct (Z.to_nat z <? n0); [|reflexivity]. unfold ah_done. eexists. split; [reflexivity|]. cbn [h_set_sb h_sb]. rewrite HB. split; [reflexivity|].
      apply (P_core m _ _ h); [reflexivity|split; auto].
    - cbn [events run ah_step]. unfold ah_string. rewrite HB. cbn [cur_type sb_stack obind no_context]. rewrite (same_exs _ _ (ho_pda _ _ H)). cbn [known_in]. destruct names; cbn [andb]; [|reflexivity].
      destruct (exs T0 x); [|reflexivity]. unfold ah_done. eexists. split; [reflexivity|]. cbn [h_set_sb h_sb]. rewrite HB. split; [reflexivity|]. apply (P_core m _ _ h); [reflexivity|split; auto].
    - exfalso. apply NA. exact I.
    - cbn [events run ah_step]. unfold ah_start_object. rewrite HB. reflexivity.
  Qed.

  (** ** Arrays *)
  Lemma elems_run : forall A (Q : ah -> list A -> Prop) (val : json -> option A) (reg : json -> Prop) t k,
    (forall j h i s L, reg j -> Q h L -> h_sb h = mk_sb ((t, CArr i) :: s) k ->
      match val j with Some a => exists h', run step (events j) h = Some (Go h') /\ h_sb h' = mk_sb ((t, CArr (S i)) :: s) k /\ Q h' (L ++ [a])%list | None => run step (events j) h = Some Fail end) ->
    forall l L h i s, Forall reg l -> Q h L -> h_sb h = mk_sb ((t, CArr i) :: s) k ->
      match omap val l with Some r => exists h' i', run step (flat_map events l) h = Some (Go h') /\ h_sb h' = mk_sb ((t, CArr i') :: s) k /\ Q h' (L ++ r)%list
      | None => run step (flat_map events l) h = Some Fail end.
  Proof.
    intros A Q val reg t k HE. induction l as [|j l IH]; intros L h i s HF HQ HB.
    - cbn. exists h, i. rewrite app_nil_r. auto.
    - inversion_clear HF as [|? ? Hj Hl]. cbn [flat_map omap]. rewrite run_bind. assert (X := HE j h i s L Hj HQ HB). destruct (val j) as [a|]; cbn [obind]; [|rewrite X; reflexivity].
      destruct X as (h' & -> & B' & Q'). assert (Y := IH _ _ _ _ Hl Q' B'). destruct (omap val l) as [r|]; cbn [obind]; [|exact Y]. destruct Y as (h2 & i2 & Y1 & Y2 & Y3). exists h2, i2. rewrite <- app_assoc in Y3. auto.
  Qed.
  Definition arr_of (k : akey) : option actx := match k with ak_accepting => Some ax_accepting_array | ak_edges => Some ax_edges_array | ak_initial => Some ax_initial_array | _ => None end.
  Lemma arr_run : forall A (Q : ah -> list A -> Prop) (val : json -> option A) (reg : json -> Prop) k t, arr_of k = Some t ->
    (forall h h' L, core h = core h' -> Q h L -> Q h' L) ->
    (forall j h i s L, reg j -> Q h L -> h_sb h = mk_sb ((t, CArr i) :: s) k ->
      match val j with Some a => exists h', run step (events j) h = Some (Go h') /\ h_sb h' = mk_sb ((t, CArr (S i)) :: s) k /\ Q h' (L ++ [a])%list | None => run step (events j) h = Some Fail end) ->
    forall j h need s, match j with JArr l => Forall reg l | _ => True end -> Q h [] -> h_sb h = mk_sb ((ax_aut, CObj need) :: s) k ->
      match (match j with JArr l => omap val l | _ => None end) with
      | Some r => exists h', run step (events j) h = Some (Go h') /\ h_sb h' = mk_sb ((ax_aut, CObj need) :: s) ak_none /\ Q h' r
      | None => run step (events j) h = Some Fail
      end.
  Proof.
    intros A Q val reg k t HK HC HE j h need s HF HQ HB. destruct j as [|b|z| |x|l|o]; try reflexivity.
    - cbn [events run]. destruct (z <? 0)%Z; cbn [ah_step]; [reflexivity|]. unfold ah_unsigned. rewrite HB. reflexivity.
    - cbn [events run ah_step]. unfold ah_string. rewrite HB. reflexivity.
    - cbn [events]. set (h0 := h_set_sb h (mk_sb ((t, CArr 0) :: (ax_aut, CObj need) :: s) k)).
      assert (ST : run step (EStartArr :: flat_map events l ++ [EEndArr])%list h = run step (flat_map events l ++ [EEndArr])%list h0).
      { cbn [run ah_step]. unfold ah_start_array. rewrite HB. unfold h0. destruct k; cbn in HK; try discriminate; injection HK as <-; cbn [no_context cur_type sb_stack obind sb_key]; unfold ah_push; rewrite HB; reflexivity. }
      rewrite ST, run_bind. assert (Q0 : Q h0 []) by (apply (HC h); auto). assert (X := elems_run A Q val reg t k HE l [] h0 0 _ HF Q0 eq_refl). destruct (omap val l) as [r|]; [|rewrite X; reflexivity].
      destruct X as (h' & i' & -> & B' & Q'). cbn [run ah_step]. unfold ah_end_array. rewrite B'. cbn [no_context cur_type sb_stack obind].
      exists (h_set_sb h' (mk_sb ((ax_aut, CObj need) :: s) ak_none)). split; [|split; [reflexivity|apply (HC h'); auto]].
      destruct k; cbn in HK; try discriminate; injection HK as <-; cbn [obind]; rewrite B'; cbn [pop_context sb_stack obind]; reflexivity.
    - cbn [events run ah_step]. unfold ah_start_object. rewrite HB. destruct k; cbn in HK; try discriminate; reflexivity.
  Qed.

  (** ** The members of "P-automaton" *)
  Definition mst : Type := option (list sref) * option (list E3) * bool.
  Definition accs_of (j : json) := match j with JArr l => omap (ref_of names) l | _ => None end.
  Definition edges_in (j : json) := match j with JArr l => omap (edge_of names) l | _ => None end.
  Notation init_arr := (initial_ok names known).
  Definition mstep (st : mst) (e : string * json) : option mst :=
    let '(a, es, i) := st in
    if String.eqb (fst e) "accepting" then match a with Some _ => None | None => L <- accs_of (snd e) ;; Some (Some L, es, i) end
    else if String.eqb (fst e) "edges" then match es with Some _ => None | None => L <- edges_in (snd e) ;; Some (a, Some L, i) end
    else if String.eqb (fst e) "initial" then if (negb embedded && i) || negb (init_arr (snd e)) then None else Some (a, es, true)
    else None.
  Definition need_of (st : mst) : list nat :=
    let '(a, es, i) := st in
    ((match a with None => [1] | _ => [] end) ++ (match es with None => [2] | _ => [] end) ++ (if embedded || i then [] else [3]))%list.
  Definition ol {A} (o : option (list A)) : list A := match o with Some l => l | None => [] end.
  Definition finish (st : mst) : option adoc :=
    let '(a, es, i) := st in acc <- a ;; e <- es ;; if embedded || i then Some (mk_adoc acc e) else None.
  Definition comb {A} (o : option A) (f : json -> option A) (js : list json) : option A :=
    match o with Some x => match js with [] => Some x | _ => None end | None => match js with [j] => f j | _ => None end end.
  Definition pa_gen (st : mst) (m : list (string * json)) : option adoc :=
    let '(a, es, i) := st in
    if forallb (fun e => String.eqb (fst e) "accepting" || String.eqb (fst e) "edges" || String.eqb (fst e) "initial") m then
      acc <- comb a accs_of (member "accepting" m) ;; e <- comb es edges_in (member "edges" m) ;;
      if forallb init_arr (member "initial" m) && (embedded || Nat.eqb ((if i then 1 else 0) + length (member "initial" m)) 1) then Some (mk_adoc acc e) else None
    else None.
  Lemma steps_gen : forall m st, (st' <- ofold mstep m st ;; finish st') = pa_gen st m.
  Proof.
    induction m as [|[key j] m IH]; intros [[a es] i].
    - cbn. destruct a, es, embedded, i; reflexivity.
    - assert (MC : forall k, member k ((key, j) :: m) = if String.eqb key k then j :: member k m else member k m) by (intros k; unfold member; cbn; destruct (String.eqb key k); auto).
      cbn [ofold]. unfold pa_gen. cbn [forallb fst]. rewrite !MC. unfold mstep at 1. cbn [fst snd].
      set (F := forallb _ m). destruct (String.eqb key "accepting") eqn:E1; [|destruct (String.eqb key "edges") eqn:E2; [|destruct (String.eqb key "initial") eqn:E3']].
      + apply String.eqb_eq in E1. subst key. change (String.eqb "accepting" "edges") with false. change (String.eqb "accepting" "initial") with false. cbn [orb andb].
        destruct a as [a|]; cbn [obind comb]; [destruct F; reflexivity|]. destruct (accs_of j) as [L|] eqn:EA; cbn [obind].
        * rewrite IH. unfold pa_gen. fold F. destruct F; auto; destruct (member "accepting" m); cbn [comb]; rewrite ?EA; reflexivity.
        * destruct F; auto; destruct (member "accepting" m); cbn [comb]; rewrite ?EA; reflexivity.
      + apply String.eqb_eq in E2. subst key. change (String.eqb "edges" "initial") with false. cbn [orb andb].
        destruct es as [es|]; cbn [obind].
        * destruct F; auto. destruct (comb a accs_of (member "accepting" m)); reflexivity.
        * destruct (edges_in j) as [L|] eqn:EA; cbn [obind].
          -- rewrite IH. unfold pa_gen. fold F. destruct F; auto. destruct (comb a accs_of (member "accepting" m)); cbn [obind]; auto; destruct (member "edges" m); cbn [comb]; rewrite ?EA; reflexivity.
          -- destruct F; auto. destruct (comb a accs_of (member "accepting" m)); cbn [obind]; auto; destruct (member "edges" m); cbn [comb]; rewrite ?EA; reflexivity.
      + cbn [orb andb]. cbn [forallb length]. destruct (negb embedded && i) eqn:EI; cbn [orb].
        * apply andb_true_iff in EI. destruct EI as [EI ->]. destruct embedded; [discriminate|]. cbn [obind]. destruct F; auto. destruct (comb a accs_of (member "accepting" m)); cbn [obind]; auto.
          destruct (comb es edges_in (member "edges" m)); cbn [obind]; auto. replace (1 + S (length (member "initial" m)) =? 1) with false by (symmetry; apply Nat.eqb_neq; lia). cbn [orb]. rewrite andb_false_r. reflexivity.
        * destruct (init_arr j) eqn:EJ; cbn [negb obind].
          -- rewrite IH. unfold pa_gen. fold F. destruct F; auto. cbn [andb]. destruct (comb a accs_of (member "accepting" m)); cbn [obind]; auto. destruct (comb es edges_in (member "edges" m)); cbn [obind]; auto.
             destruct embedded; auto. cbn in EI. subst i. reflexivity.
          -- cbn [andb]. destruct F; auto. destruct (comb a accs_of (member "accepting" m)); cbn [obind]; auto. destruct (comb es edges_in (member "edges" m)); cbn [obind]; auto.
      + reflexivity.
  Qed.
  Lemma padoc_steps : forall m, padoc_of names known embedded (JObj m) = (st <- ofold mstep m (None, None, false) ;; finish st).
  Proof. intros m. rewrite steps_gen. unfold padoc_of, pa_gen. destruct (forallb _ m); auto. unfold comb. destruct (member "accepting" m) as [|[] []]; cbn [obind accs_of]; auto; destruct (omap (ref_of names) l); cbn [obind]; auto.
    destruct (member "edges" m) as [|[] []]; cbn [obind edges_in]; auto; destruct (omap (edge_of names) l); cbn [obind]; auto. Qed.

  Lemma init_omap : forall l, match omap (fun j => if init_ok j then Some tt else None) l with Some _ => forallb init_ok l = true | None => forallb init_ok l = false end.
  Proof. induction l as [|j l IH]; cbn; auto. destruct (init_ok j); cbn; auto. destruct (omap _ l); cbn; auto. Qed.
  Lemma member_run : forall mo e a es i h s key, regular_member names known mo e -> P mo (ol a) (ol es) h -> h_sb h = mk_sb ((ax_aut, CObj (need_of (a, es, i))) :: s) key ->
    match mstep (a, es, i) e with
    | Some st' => exists h', run step (EKey (fst e) :: events (snd e)) h = Some (Go h') /\ h_sb h' = mk_sb ((ax_aut, CObj (need_of st')) :: s) ak_none /\ P mo (ol (fst (fst st'))) (ol (snd (fst st'))) h'
    | None => run step (EKey (fst e) :: events (snd e)) h = Some Fail
    end.
  Proof.
    intros mo [k j] a es i h s key HR HP HB. unfold mstep. cbn [fst snd]. cbn [run ah_step]. unfold ah_key. rewrite HB. cbn [no_context cur_type sb_stack obind].
    unfold regular_member in HR. cbn [fst snd] in HR.
    destruct (String.eqb k "accepting") eqn:E1; [|destruct (String.eqb k "edges") eqn:E2; [|destruct (String.eqb k "initial") eqn:E3']]; [| | |reflexivity].
    - unfold ah_handle. rewrite HB. destruct a as [a|].
      + unfold need_of. destruct es, i, embedded; reflexivity.
      + set (need' := need_of (Some [], es, i)).
        replace (handle_key 1 ak_accepting (mk_sb ((ax_aut, CObj (need_of (None, es, i))) :: s) key)) with (Some (Go (mk_sb ((ax_aut, CObj need') :: s) ak_accepting))) by (unfold need', need_of; destruct es, i, embedded; reflexivity).
        assert (X := arr_run sref (fun h L => P mo L (ol es) h) (ref_of names) (ref_mode names known mo) ak_accepting _ eq_refl (fun h h' L => P_core mo L (ol es) h h') (fun j h i s L => acc_run mo (ol es) j h i s L) j (h_set_sb h (mk_sb ((ax_aut, CObj need') :: s) ak_accepting)) need' s HR).
        unfold accs_of. destruct (match j with JArr l => omap (ref_of names) l | _ => None end) as [L|]; cbn [obind]; cbn beta in X; apply X; try reflexivity; apply (P_core mo _ _ h); auto.
    - unfold ah_handle. rewrite HB. destruct es as [es|].
      + unfold need_of. destruct a, i, embedded; reflexivity.
      + set (need' := need_of (a, Some [], i)).
        replace (handle_key 2 ak_edges (mk_sb ((ax_aut, CObj (need_of (a, None, i))) :: s) key)) with (Some (Go (mk_sb ((ax_aut, CObj need') :: s) ak_edges))) by (unfold need', need_of; destruct a, i, embedded; reflexivity).
        assert (X := arr_run E3 (fun h L => P mo (ol a) L h) (edge_of names) (regular_edge names known mo) ak_edges _ eq_refl (fun h h' L => P_core mo (ol a) L h h') (fun j h i s L => edge_run mo (ol a) j h i s L) j (h_set_sb h (mk_sb ((ax_aut, CObj need') :: s) ak_edges)) need' s HR).
        unfold edges_in. destruct (match j with JArr l => omap (edge_of names) l | _ => None end) as [L|]; cbn [obind]; cbn beta in X; apply X; try reflexivity; apply (P_core mo _ _ h); auto.
    - assert (X : forall h', core h = core h' -> h_sb h' = mk_sb ((ax_aut, CObj (need_of (a, es, true))) :: s) ak_initial ->
        if init_arr j then exists h2, run step (events j) h' = Some (Go h2) /\ h_sb h2 = mk_sb ((ax_aut, CObj (need_of (a, es, true))) :: s) ak_none /\ P mo (ol a) (ol es) h2 else run step (events j) h' = Some Fail).
      { intros h' C' B'. assert (X := arr_run unit (fun h L => P mo (ol a) (ol es) h) (fun j => if init_ok j then Some tt else None) (fun j => ~ is_array j) ak_initial _ eq_refl (fun h h' L => P_core mo (ol a) (ol es) h h')
          (fun j h i s L => init_run mo (ol a) (ol es) j h i s L) j h' (need_of (a, es, true)) s HR (P_core _ _ _ _ _ C' HP) B').
        unfold initial_ok. destruct j as [|b|z| |x|l|o]; try exact X. assert (Y := init_omap l). fold init_ok. destruct (omap _ l) as [r|]; fold init_ok in *.
        - change (forallb (fun x => match x with JNum z => negb names && (0 <=? z)%Z && known (SNum (Z.to_nat z)) | JStr s0 => names && known (SName s0) | _ => false end) l) with (forallb init_ok l). rewrite Y. exact X.
        - change (forallb (fun x => match x with JNum z => negb names && (0 <=? z)%Z && known (SNum (Z.to_nat z)) | JStr s0 => names && known (SName s0) | _ => false end) l) with (forallb init_ok l). rewrite Y. exact X. }
      destruct (negb embedded && i) eqn:EI; cbn [orb].
      + apply andb_true_iff in EI. destruct EI as [EI ->]. unfold ah_handle, need_of in *. rewrite HB. destruct embedded; [discriminate|]. destruct a, es; reflexivity.
      + assert (Y : exists h', core h = core h' /\ h_sb h' = mk_sb ((ax_aut, CObj (need_of (a, es, true))) :: s) ak_initial /\
          (if embedded then Some (Go (h_set_sb h (set_key ak_initial (mk_sb ((ax_aut, CObj (need_of (a, es, i))) :: s) key)))) else ah_handle 3 ak_initial h) = Some (Go h')).
        { unfold need_of in *. destruct embedded.
          - eexists. split; [|split; [|reflexivity]]; [reflexivity|]. destruct a, es, i; reflexivity.
          - cbn in EI. subst i. unfold ah_handle. rewrite HB. destruct a, es; eexists; (split; [|split; [|reflexivity]]); reflexivity. }
        destruct Y as (h' & C' & B' & ->). specialize (X h' C' B'). destruct (init_arr j); cbn [negb]; exact X.
  Qed.

  Lemma members_run : forall mo m st h s key, Forall (regular_member names known mo) m -> P mo (ol (fst (fst st))) (ol (snd (fst st))) h -> h_sb h = mk_sb ((ax_aut, CObj (need_of st)) :: s) key ->
    match ofold mstep m st with
    | Some st' => exists h' key', run step (flat_map (fun e => EKey (fst e) :: events (snd e)) m) h = Some (Go h') /\ h_sb h' = mk_sb ((ax_aut, CObj (need_of st')) :: s) key' /\ P mo (ol (fst (fst st'))) (ol (snd (fst st'))) h'
    | None => run step (flat_map (fun e => EKey (fst e) :: events (snd e)) m) h = Some Fail
    end.
  Proof.
    induction m as [|e m IH]; intros st h s key HF HP HB.
    - cbn. eauto.
    - inversion_clear HF as [|? ? He Hm]. cbn [ofold flat_map]. rewrite run_bind. destruct st as [[a es] i]. assert (X := member_run mo e a es i h s key He HP HB). destruct (mstep (a, es, i) e) as [st'|]; cbn [obind].
      + destruct X as (h' & X1 & X2 & X3). rewrite X1. apply (IH st' h' s ak_none); auto.
      + rewrite X. reflexivity.
  Qed.
  (** The value of "P-automaton". *)
  Lemma pa_run : forall j h need s, regular_pa names known j -> (forall mo, P mo [] [] h) -> h_sb h = mk_sb ((ax_initial, CObj need) :: s) ak_aut ->
    match padoc_of names known embedded j with
    | Some D => exists h' mo, run step (events j) h = Some (if embedded then Halt h' else Go h') /\ (embedded = false -> h_sb h' = mk_sb ((ax_initial, CObj need) :: s) ak_none) /\ P mo (ad_acc D) (ad_edges D) h'
    | None => run step (events j) h = Some Fail
    end.
  Proof.
    intros j h need s [mo HR] HP HB. destruct j as [|b|z| |x|l|m]; try reflexivity.
    - cbn [events run]. destruct (z <? 0)%Z; cbn [ah_step]; [reflexivity|]. unfold ah_unsigned. rewrite HB. reflexivity.
    - cbn [events run ah_step]. unfold ah_string. rewrite HB. reflexivity.
    - cbn [events run ah_step]. unfold ah_start_array. rewrite HB. reflexivity.
    - rewrite padoc_steps. cbn [events run ah_step]. unfold ah_start_object. rewrite HB. cbn [no_context sb_stack sb_key]. unfold ah_push. set (h0 := h_set_sb h _).
      assert (B0 : h_sb h0 = mk_sb ((ax_aut, CObj (need_of (None, None, false))) :: (ax_initial, CObj need) :: s) ak_aut).
      { unfold h0. cbn [h_set_sb h_sb]. rewrite HB. unfold push_context, a_aut_context, need_of. cbn [sb_stack sb_key app]. destruct embedded; reflexivity. }
      assert (P0 : P mo [] [] h0) by (apply (P_core mo _ _ h); [reflexivity|auto]). clearbody h0. rewrite run_bind.
      assert (X := members_run mo m (None, None, false) h0 _ _ HR P0 B0). destruct (ofold mstep m (None, None, false)) as [[[a es] i]|]; cbn [obind]; [|rewrite X; reflexivity].
      destruct X as (h' & key' & -> & B' & P'). cbn [fst snd] in P'. cbn [run ah_step]. unfold ah_end_object. rewrite B'. cbn [no_context sb_stack missing obind]. unfold finish, need_of in *.
      destruct a as [a|]; [|destruct es, embedded, i; reflexivity]. destruct es as [es|]; [|destruct embedded, i; reflexivity]. cbn [obind app]. destruct (embedded || i) eqn:EI; [|reflexivity].
      cbn [pop_context sb_stack sb_key obind cur_type]. cbn [ol ad_acc ad_edges] in P' |- *.
      destruct embedded.
      + eexists. exists mo. split; [cbn [h_set_sb h_sb cur_type sb_stack obind]; reflexivity|]. split; [discriminate|]. apply (P_core mo _ _ h'); [reflexivity|auto].
      + unfold ah_done. eexists. exists mo. split; [reflexivity|]. split; [reflexivity|]. apply (P_core mo _ _ h'); [reflexivity|auto].
  Qed.

  (** ** The start *)
  Hypothesis HL : NoDup (t_labels T0).
  Hypothesis HNL : pd_nlab (t_rules T0) = length (t_labels T0).
  Lemma start_ok : exists h, ah0 embedded ord T0 = Some h /\ (forall mo, P mo [] [] h) /\ h_sb h = (if embedded then mk_sb [a_initial_context] ak_aut else mk_sb [] ak_none).
  Proof.
    unfold ah0, aut_special. cbn [is_sorted obind]. eexists. split; [reflexivity|]. split; [|reflexivity]. intros mo. split.
    - constructor; cbn [h_pda h_aut h_map h_extra a_acc a_edges a_ord map]; auto; try constructor; auto; try discriminate.
      + unfold a_size. cbn [a_acc]. rewrite special_acc_length. cbn. fold n0. lia.
      + destruct mo; auto.
      + intros s [].
    - constructor; cbn [h_pda h_aut h_map h_extra].
      + intros s [].
      + intros s l s' [].
      + intros i. split; [|intros (s & [] & _)]. unfold aut_final. cbn [a_acc]. intros K. exfalso. assert (i < n0). { rewrite <- (special_acc_length n0 0 [] true). apply nth_error_Some. unfold n0. congruence. }
        fold n0 in K. rewrite special_acc_nth in K; auto; [discriminate|constructor|intros s []].
      + intros q l q'. split; [intros []|intros (s & lab & s' & [] & _)].
      + exists []. rewrite app_nil_r. split; auto. intros x [].
  Qed.

  (** ** What the automaton is *)
  Definition state_id (s : sref) (i : nat) : Prop := match s with SName x => names = true /\ exs T0 x = Some i | SNum v => names = false /\ v < n0 /\ i = v end.
  Record read_as (D : adoc) (T' : tp) (A : aut) : Prop := {
    ra_pda : same_pda T';
    ra_labels : exists new, t_labels T' = (t_labels T0 ++ new)%list /\ (forall x, In x new -> In x (adoc_labels D));
    ra_in : forall x, In x (adoc_labels D) -> In x (t_labels T');
    ra_lang : forall s i w v, state_id s i -> Forall2 (fun l x => exists_label String.eqb T' l = Some x) w v -> (aut_lang n0 A (i, v) <-> daccepts D s w);
    ra_n : n0 <= a_size A;
    ra_ord : a_ord A = ord;
    ra_nd : NoDup (map fst (a_edges A));
    ra_range : forall q l q', aut_edges A q l q' -> q < a_size A /\ q' < a_size A /\ (forall x, l = Some x -> x < pd_nlab (t_rules T'));
    ra_eps : (forall s l s', In (s, l, s') (ad_edges D) -> l <> "") -> forall q q', ~ aut_edges A q None q';
    ra_no_in : (forall s l s' i, In (s, l, s') (ad_edges D) -> ~ state_id s' i) -> forall q l q', aut_edges A q l q' -> n0 <= q' }.
  Lemma state_den : forall m h s i, hok m h -> state_id s i -> den h s i.
  Proof.
    intros m h [x|v] i H; cbn.
    - intros [-> K]. split; auto. apply (den_name m); auto.
    - intros (-> & K & ->). apply Nat.ltb_lt in K. rewrite K. auto.
  Qed.
  Lemma den_state : forall m h s i, hok m h -> den h s i -> i < n0 -> state_id s i.
  Proof.
    intros m h [x|v] i H; cbn.
    - intros [-> K] L. split; auto. apply (den_name m) in K; auto. destruct K as [K|(_ & k & -> & K)]; auto. lia.
    - intros K L. assert (X := ho_extra _ _ H v i). destruct names; [apply X in K; lia|]. destruct (v <? n0) eqn:E; [apply Nat.ltb_lt in E; subst; auto|apply X in K; lia].
  Qed.
  Lemma adoc_labels_In : forall D x, In x (adoc_labels D) <-> x <> "" /\ exists s s', In (s, x, s') (ad_edges D).
  Proof.
    intros D x. unfold adoc_labels. rewrite filter_In, in_map_iff. split.
    - intros [([[s l] s'] & <- & H) K]. cbn in *. split; [|eauto]. intros ->. discriminate.
    - intros (K & s & s' & H). split; [exists (s, x, s'); auto|]. destruct (String.eqb_spec x ""); auto.
  Qed.
  Lemma lang_to : forall m h Acc E q v f, P m Acc E h -> apath (aut_edges (h_aut h)) q v f -> aut_final (h_aut h) f -> forall s w, den h s q -> Forall2 (fun l x => exists_label String.eqb (h_pda h) l = Some x) w v ->
    exists g, In g Acc /\ dpath E s w g.
  Proof.
    intros m h Acc E q v f [H R] HP HF. induction HP as [q|q x q1 v q2 HE HP IH|q q1 v q2 HE HP IH]; intros s w D F.
    - inversion F; subst. apply (re_final _ _ _ R) in HF. destruct HF as (g & G1 & G2). exists g. rewrite (den_inj m h s g q H D G2). split; auto. constructor.
    - apply (re_edges _ _ _ R) in HE. destruct HE as (a & lab & b & HE & Da & Db & Lb). assert (s = a) by exact (den_inj m h _ _ _ H D Da). subst a. inversion F as [|l y w' v' Fl Fw]; subst.
      unfold lden in Lb. destruct (String.eqb_spec lab "") as [|NL]; [discriminate|]. destruct Lb as (y & Y & Lb). injection Y as <-.
      assert (l = lab). { apply (tr_index_Some string String.eqb String.eqb_eq) in Fl. apply (tr_index_Some string String.eqb String.eqb_eq) in Lb. congruence. } subst l.
      destruct (IH HF b w' Db Fw) as (g & G1 & G2). exists g. split; auto. apply dp_label with b; auto.
    - apply (re_edges _ _ _ R) in HE. destruct HE as (a & lab & b & HE & Da & Db & Lb). assert (s = a) by exact (den_inj m h _ _ _ H D Da). subst a.
      unfold lden in Lb. destruct (String.eqb_spec lab "") as [NL|NL]; [subst lab|destruct Lb as (y & Y & _); discriminate].
      destruct (IH HF b w Db F) as (g & G1 & G2). exists g. split; auto. apply dp_empty with b; auto.
  Qed.
  Lemma lang_from : forall m h Acc E s w g, P m Acc E h -> dpath E s w g -> In g Acc -> forall q v, den h s q -> Forall2 (fun l x => exists_label String.eqb (h_pda h) l = Some x) w v ->
    exists f, apath (aut_edges (h_aut h)) q v f /\ aut_final (h_aut h) f.
  Proof.
    intros m h Acc E s w g [H R] HP HF. induction HP as [s|s l s1 w s2 HE NL HP IH|s s1 w s2 HE HP IH]; intros q v D F.
    - inversion F; subst. exists q. split; [constructor|]. apply (re_final _ _ _ R). eauto.
    - inversion F as [|l' y w' v' Fl Fw]; subst. destruct (re_ends _ _ _ R _ _ _ HE) as (_ & [q1 D1] & _). destruct (IH HF q1 v' D1 Fw) as (f & F1 & F2). exists f. split; auto.
      apply (ap_lab _ q y q1); auto. apply (re_edges _ _ _ R). exists s, l, s1. ands; auto. unfold lden. destruct (String.eqb_spec l ""); [contradiction|]. eauto.
    - destruct (re_ends _ _ _ R _ _ _ HE) as (_ & [q1 D1] & _). destruct (IH HF q1 v D1 F) as (f & F1 & F2). exists f. split; auto.
      apply (ap_eps _ q q1); auto. apply (re_edges _ _ _ R). exists s, "", s1. ands; auto. reflexivity.
  Qed.
  Lemma P_read : forall m D h, P m (ad_acc D) (ad_edges D) h -> read_as D (h_pda h) (h_aut h).
  Proof.
    intros m D h HP. assert (HP' := HP). destruct HP' as [H R]. constructor.
    - apply H.
    - destruct (re_new _ _ _ R) as (new & N1 & N2). exists new. split; auto. intros x Hx. apply adoc_labels_In. auto.
    - intros x Hx. apply adoc_labels_In in Hx. destruct Hx as (Hx & s & s' & He). apply (re_ends _ _ _ R _ _ _ He). auto.
    - intros s i w v Hs Hw. assert (D0 := state_den m h s i H Hs). unfold aut_lang, lang, daccepts. cbn [fst snd]. split.
      + intros (_ & f & F1 & F2). eapply lang_to; eauto.
      + intros (g & G1 & G2). split.
        * destruct s; cbn in Hs; [apply (exs_lt s); tauto|]. destruct Hs as (_ & K & ->). auto.
        * eapply lang_from; eauto.
    - rewrite (ho_size _ _ H). lia.
    - apply H.
    - apply H.
    - intros q l q' He. apply (re_edges _ _ _ R) in He. destruct He as (a & lab & b & He & Da & Db & Lb). ands; [eapply den_lt; eauto|eapply den_lt; eauto|].
      intros x ->. unfold lden in Lb. destruct (String.eqb lab ""); [discriminate|]. destruct Lb as (y & Y & Lb). injection Y as <-. apply (tr_index_Some string String.eqb String.eqb_eq) in Lb. rewrite (sp_n _ (ho_pda _ _ H)). apply nth_error_Some. congruence.
    - intros NE q q' He. apply (re_edges _ _ _ R) in He. destruct He as (a & lab & b & He & Da & Db & Lb). apply NE in He. unfold lden in Lb. destruct (String.eqb_spec lab ""); auto. destruct Lb as (y & Y & _). discriminate.
    - intros NI q l q' He. apply (re_edges _ _ _ R) in He. destruct He as (a & lab & b & He & Da & Db & Lb). destruct (Nat.le_gt_cases n0 q'); auto. exfalso. apply (NI _ _ _ q' He). eapply den_state; eauto.
  Qed.
  (** ** The document *)
  Lemma adoc_run : embedded = false -> forall j, regular_adoc names known j ->
    match adoc_of names known false j with
    | Some D => exists T' A, parse_aut names embedded asserts ord T0 j = Some (Some (T', A)) /\ read_as D T' A
    | None => parse_aut names embedded asserts ord T0 j = Some None
    end.
  Proof.
    intros HE j HR. destruct start_ok as (h & E0 & P0 & B0). unfold parse_aut. rewrite E0. cbn [obind]. rewrite HE in B0.
    assert (X : match adoc_of names known embedded j with Some D => exists h' mo, run step (events j) h = Some (Go h') /\ P mo (ad_acc D) (ad_edges D) h' | None => run step (events j) h = Some Fail end).
    { destruct j as [|b|z| |x|l|m]; try reflexivity.
      - destruct HR.
      - cbn [adoc_of events run ah_step]. unfold ah_string. rewrite B0. reflexivity.
      - cbn [adoc_of events run ah_step]. unfold ah_start_array. rewrite B0. reflexivity.
      - cbn [events run ah_step]. unfold ah_start_object. rewrite B0. cbn [no_context sb_stack]. unfold ah_push. rewrite B0. set (h0 := h_set_sb h _).
        assert (P1 : forall mo, P mo [] [] h0) by (intros mo; apply (P_core mo _ _ h); [reflexivity|auto]).
        assert (B1 : h_sb h0 = mk_sb [(ax_initial, CObj [1])] ak_none) by reflexivity. clearbody h0.
        destruct m as [|[k p] m].
        + cbn [adoc_of flat_map app run ah_step]. unfold ah_end_object. rewrite B1. reflexivity.
        + cbn [flat_map fst snd app]. cbn [run ah_step]. unfold ah_key. rewrite B1. cbn [no_context cur_type sb_stack obind]. cbn [adoc_of].
          destruct (String.eqb k "P-automaton") eqn:EK; [|destruct m; reflexivity]. unfold ah_handle. rewrite B1. cbn [handle_key sb_stack memb existsb Nat.eqb orb filter negb].
          inversion_clear HR as [|? ? Hp Hm]. cbn [fst snd] in Hp. specialize (Hp EK). rewrite <- app_assoc, run_bind.
          assert (Y := pa_run p (h_set_sb h0 (mk_sb [(ax_initial, CObj [])] ak_aut)) [] [] Hp (fun mo => P_core mo _ _ h0 (h_set_sb h0 (mk_sb [(ax_initial, CObj [])] ak_aut)) eq_refl (P1 mo)) eq_refl).
          destruct (padoc_of names known embedded p) as [D|].
          * destruct Y as (h' & mo & -> & Y1 & Y2). specialize (Y1 HE). rewrite HE. destruct m as [|[k2 p2] m].
            -- cbn [flat_map app run ah_step]. unfold ah_end_object. rewrite Y1. cbn [no_context sb_stack missing pop_context obind]. unfold ah_done. eexists. exists mo. split; [reflexivity|]. apply (P_core mo _ _ h'); [reflexivity|auto].
            -- cbn [flat_map app fst snd run ah_step]. unfold ah_key. rewrite Y1. cbn [no_context cur_type sb_stack obind]. destruct (String.eqb k2 "P-automaton"); [|reflexivity]. unfold ah_handle. rewrite Y1. reflexivity.
          * rewrite Y. destruct m; reflexivity. }
    replace (adoc_of names known false j) with (adoc_of names known embedded j) by (rewrite HE; auto). destruct (adoc_of names known embedded j) as [D|].
    - destruct X as (h' & mo & -> & HP). exists (h_pda h'), (h_aut h'). split; auto. eapply P_read; eauto.
    - rewrite X. reflexivity.
  Qed.
End Read.
