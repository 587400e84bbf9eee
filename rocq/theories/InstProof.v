(** Proofs about the reading of solver instances (InstModel): what a read instance means. *)
From Coq Require Import List Arith Lia Bool ZArith String Permutation.
From Verif Require Import Base BaseFacts Spec PdaModel PdaProof TrieModel RefineModel MappingProof TypedModel TypedProof AutModel AutProof PreStarProof PreStarLang PostStarLang NfaModel ConstructProof JsonModel JsonSpec JsonProof JsonWrite
  AutJsonModel AutJsonSpec AutJsonProof InstModel InstSpec.
Import ListNotations.
Open Scope string_scope.
Open Scope nat_scope.

(** ** The states of a document *)
Lemma drules_In : forall d f r, In (f, r) (drules d) <-> exists ms l rs, In (f, ms) d /\ In (l, rs) ms /\ In r rs.
Proof.
  intros d f r. unfold drules. rewrite in_flat_map. split.
  - intros ([f' ms] & H1 & H2). apply in_flat_map in H2. destruct H2 as ([l rs] & H2 & H3). apply in_map_iff in H3. destruct H3 as (x & E & H3). cbn in *. injection E as -> ->. exists ms, l, rs. auto.
  - intros (ms & l & rs & H1 & H2 & H3). exists (f, ms). split; auto. apply in_flat_map. exists (l, rs). split; auto. apply in_map_iff. exists r. auto.
Qed.
Definition ref_kind (names : bool) (s : sref) : Prop := match s with SName _ => names = true | SNum _ => names = false end.
Record doc_shape (names : bool) (d : doc) : Prop := {
  ds_key : forall f ms, In (f, ms) d -> ref_kind names f;
  ds_num : forall v ms, In (SNum v, ms) d -> v < length d;
  ds_to : forall f r, In (f, r) (drules d) -> ref_kind names (d_to r) }.
Lemma rule_of_kind : forall names wk strict m r, rule_of names wk strict m = Some r -> ref_kind names (d_to r).
Proof.
  intros names wk strict m r H. unfold rule_of in H. destruct (match member "to" m with [j] => to_of names j | _ => None end) as [t|] eqn:E; [|discriminate]. cbn [obind] in H.
  assert (K : ref_kind names t).
  { destruct (member "to" m) as [|j [|]]; try discriminate. destruct j; cbn in E; try discriminate; destruct names; try discriminate; [destruct (z <? 0)%Z; [discriminate|]|]; injection E as <-; reflexivity. }
  match type of H with obind ?x _ = _ => destruct x as [o|] eqn:EO end; [|discriminate]. cbn [obind] in H. destruct wk.
  - destruct (Nat.eqb _ _); [injection H as <-; auto|discriminate].
  - match type of H with obind ?x _ = _ => destruct x as [w|] end; [|discriminate]. cbn [obind] in H. destruct (Nat.eqb _ _); [injection H as <-; auto|discriminate].
  - match type of H with obind ?x _ = _ => destruct x as [w|] end; [|discriminate]. cbn [obind] in H. destruct (Nat.eqb _ _); [injection H as <-; auto|discriminate].
Qed.
Lemma rules_of_kind : forall names wk strict j rs r, rules_of names wk strict j = Some rs -> In r rs -> ref_kind names (d_to r).
Proof.
  intros names wk strict j rs r H Hr. destruct j as [| | | | |l|m]; try discriminate; cbn in H.
  - apply (omap_In _ _ _ _ _ _ H) in Hr. destruct Hr as (j & _ & Hj). destruct j; try discriminate. eapply rule_of_kind; eauto.
  - destruct (rule_of names wk strict m) as [r'|] eqn:E; [|discriminate]. cbn in H. injection H as <-. destruct Hr as [<-|[]]. eapply rule_of_kind; eauto.
Qed.
Lemma state_of_kind : forall names wk strict j ms l rs r, state_of names wk strict j = Some ms -> In (l, rs) ms -> In r rs -> ref_kind names (d_to r).
Proof.
  intros names wk strict j ms l rs r H H1 H2. destruct j as [| | | | |l'|m]; try discriminate; cbn in H. apply (omap_In _ _ _ _ _ _ H) in H1. destruct H1 as (e & _ & He).
  destruct (rules_of names wk strict (snd e)) as [rs'|] eqn:E; [|discriminate]. cbn in He. injection He as _ <-. eapply rules_of_kind; eauto.
Qed.
Lemma states_of_shape : forall names wk strict j d, states_of names wk strict j = Some d -> doc_shape names d.
Proof.
  intros names wk strict j d H. destruct j as [| | | | |l|m]; try discriminate; cbn in H; destruct names eqn:EN; try discriminate.
  - assert (K : forall f ms, In (f, ms) d -> exists i x, f = SNum i /\ i < length d /\ state_of false wk strict x = Some ms).
    { intros f ms Hf. rewrite (omap_length _ _ _ _ _ H), enum_length. apply (omap_In _ _ _ _ _ _ H) in Hf. destruct Hf as ([i x] & H1 & H2). cbn [fst snd] in H2. destruct (state_of false wk strict x) as [ms'|] eqn:E; [|discriminate].
      cbn in H2. injection H2 as <- <-. exists i, x. split; auto. split; auto. apply enum_In in H1. apply nth_error_Some. congruence. }
    constructor.
    + intros f ms Hf. destruct (K f ms Hf) as (i & x & -> & _). reflexivity.
    + intros v ms Hf. destruct (K _ _ Hf) as (i & x & E & L & _). injection E as ->. auto.
    + intros f r Hr. apply drules_In in Hr. destruct Hr as (ms & l' & rs & H1 & H2 & H3). destruct (K _ _ H1) as (i & x & _ & _ & E). eapply state_of_kind; eauto.
  - assert (K : forall f ms, In (f, ms) d -> exists i x, f = SName i /\ state_of true wk strict x = Some ms).
    { intros f ms Hf. apply (omap_In _ _ _ _ _ _ H) in Hf. destruct Hf as ([i x] & H1 & H2). cbn [fst snd] in H2. destruct (state_of true wk strict x) as [ms'|] eqn:E; [|discriminate].
      cbn in H2. injection H2 as <- <-. exists i, x. auto. }
    constructor.
    + intros f ms Hf. destruct (K f ms Hf) as (i & x & -> & _). reflexivity.
    + intros v ms Hf. destruct (K _ _ Hf) as (i & x & E & _). discriminate.
    + intros f r Hr. apply drules_In in Hr. destruct Hr as (ms & l' & rs & H1 & H2 & H3). destruct (K _ _ H1) as (i & x & _ & E). eapply state_of_kind; eauto.
Qed.
Lemma pda_of_shape : forall names wk strict j d, pda_of names wk strict j = Some d -> doc_shape names d.
Proof. intros names wk strict j d H. destruct j as [| | | | | |m]; try discriminate. cbn in H. destruct (member "states" m) as [|s [|]]; try discriminate. eapply states_of_shape; eauto. Qed.
Lemma doc_of_shape : forall names wk strict j d, doc_of names wk strict j = Some d -> doc_shape names d.
Proof. intros names wk strict j d H. destruct j as [| | | | | |m]; try discriminate. cbn in H. destruct (member "pda" m) as [|s [|]]; try discriminate. eapply pda_of_shape; eauto. Qed.

(** ** The rules listed by all_rules are those of the rule store *)
Lemma all_rules_entries : forall (T : tp) rs, all_rules "" T = Some rs -> forall r, In r rs <->
  exists p rl ls i, In (rl, ls) (rules_at (t_rules T) p) /\ matches (length (t_labels T)) ls i /\ to_trule "" T p i rl = Some r.
Proof.
  intros T rs H r. unfold all_rules in H. destruct (omap _ (seq 0 (pd_n (t_rules T)))) as [ls|] eqn:E; [|discriminate]. cbn in H. injection H as <-.
  assert (M : forall lb i, In i (if wild lb then seq 0 (length (t_labels T)) else labs lb) <-> matches (length (t_labels T)) lb i).
  { intros lb i. unfold matches. destruct (wild lb); [rewrite in_seq; lia|tauto]. }
  rewrite in_concat. split.
  - intros (ts & Hts & Hr). apply (omap_In _ _ _ _ _ _ E) in Hts. destruct Hts as (p & _ & Hts). change (ps_rules (nth p (pd_states (t_rules T)) empty_pstate)) with (rules_at (t_rules T) p) in Hts.
    destruct (omap (rules_of_entry "" T p) (rules_at (t_rules T) p)) as [es|] eqn:Ee; [|discriminate]. injection Hts as <-. apply in_concat in Hr. destruct Hr as (x & Hx & Hr).
    apply (omap_In _ _ _ _ _ _ Ee) in Hx. destruct Hx as ([rl lb] & He & Hx). unfold rules_of_entry in Hx. apply (omap_In _ _ _ _ _ _ Hx) in Hr. destruct Hr as (i & Hi & Hr). cbn [fst snd] in *.
    exists p, rl, lb, i. split; auto. split; auto. apply M; auto.
  - intros (p & rl & lb & i & H1 & H2 & H3). assert (L : p < pd_n (t_rules T)).
    { destruct (Nat.lt_ge_cases p (pd_n (t_rules T))); auto. rewrite rules_at_overflow in H1 by auto. destruct H1. }
    assert (X : In p (seq 0 (pd_n (t_rules T)))) by (apply in_seq; lia).
    assert (Z : (es <- omap (rules_of_entry "" T p) (rules_at (t_rules T) p) ;; Some (concat es)) <> None).
    { assert (F := omap_inv _ _ _ _ _ E). clear - F X. revert X. induction F as [|a b l l' HF F IH]; intros X; [destruct X|]. destruct X as [->|X]; auto. unfold rules_at. rewrite HF. discriminate. }
    destruct (omap (rules_of_entry "" T p) (rules_at (t_rules T) p)) as [es|] eqn:Ee; [|cbn in Z; congruence]. exists (concat es). split.
    + apply (omap_In _ _ _ _ _ _ E). exists p. split; auto. change (ps_rules (nth p (pd_states (t_rules T)) empty_pstate)) with (rules_at (t_rules T) p). rewrite Ee. reflexivity.
    + assert (W : rules_of_entry "" T p (rl, lb) <> None).
      { assert (F := omap_inv _ _ _ _ _ Ee). clear - F H1. revert H1. induction F as [|a b l l' HF F IH]; intros X; [destruct X|]. destruct X as [->|X]; auto. congruence. }
      destruct (rules_of_entry "" T p (rl, lb)) as [x|] eqn:Ex; [|congruence]. apply in_concat. exists x. split; [apply (omap_In _ _ _ _ _ _ Ee); eauto|].
      unfold rules_of_entry in Ex. apply (omap_In _ _ _ _ _ _ Ex). exists i. split; auto. cbn [snd]. apply M; auto.
Qed.

(** ** Adding labels *)
Lemma labels_eff : forall cf new T T2, good cf T -> same_pda T T2 -> t_labels T2 = (t_labels T ++ new)%list -> eff cf T T2 (fun c => exists l, c = NLabel l /\ In l new).
Proof.
  intros cf. induction new as [|l new IH]; intros T T2 HG HS HL.
  - assert (T2 = T) as ->.
    { destruct HG as [cs HI]. assert (N := ti_n _ _ _ _ _ _ HI). destruct HS as [S1 S2 S3 S4]. destruct T as [[ps n] ls ss], T2 as [[ps2 n2] ls2 ss2]. cbn in *. rewrite app_nil_r in HL. subst. reflexivity. }
    apply eff_refl. intros c (l & _ & []).
  - destruct (eff_label cf T l HG) as [E1 _]. assert (G1 := eff_good cf _ _ _ HG E1). destruct G1 as [G1 _].
    assert (L1 : t_labels (fst (insert_label String.eqb T l)) = (t_labels T ++ [l])%list /\ pd_states (t_rules (fst (insert_label String.eqb T l))) = pd_states (t_rules T) /\ t_states (fst (insert_label String.eqb T l)) = t_states T).
    { unfold insert_label, ts_insert. assert (tr_index String.eqb (t_labels T) l = None) as ->; [|cbn; auto].
      destruct (tr_index String.eqb (t_labels T) l) as [i|] eqn:E; auto. exfalso. apply (tr_index_Some string String.eqb String.eqb_eq) in E. apply nth_error_In in E.
      assert (N := sp_nd _ _ HS). rewrite HL in N. apply NoDup_remove_2 in N. apply N, in_or_app. auto. }
    destruct L1 as (L1 & L2 & L3).
    eapply eff_iff; [eapply eff_trans; [exact HG|exact E1|apply IH; auto]|].
    + destruct HS as [S1 S2 S3 S4]. constructor; congruence.
    + rewrite L1, HL, <- app_assoc. reflexivity.
    + intros c. cbn. split; [intros [->|(k & -> & K)]; eauto|intros (k & -> & [->|K]); eauto].
Qed.

(** ** The pushdown automaton *)
Section Pda.
  Variable cf : jcfg.
  Notation names := (cf_names cf).
  Variables (d : doc) (T : tp).
  Hypothesis DS : doc_shape names d.
  Hypothesis HE : eff cf tp_empty T (doc_calls cf d).

  Lemma T_good : good cf T.
  Proof. apply (eff_good cf tp_empty T _ (empty_good cf) HE). Qed.
  Lemma T_states : forall x, In x (t_states T) <-> doc_calls cf d (NState x).
  Proof.
    intros x. destruct (doc_rules cf d T HE) as (rs & _ & _ & _ & _ & H). rewrite <- H. destruct T_good as [cs HI]. split.
    - intros K. apply In_nth_error in K. destruct K as [i K]. exists i. apply (state_nth string String.eqb string String.eqb (cf_no_opl cf) String.eqb_eq cs); auto.
    - intros [i K]. apply (state_nth string String.eqb string String.eqb (cf_no_opl cf) String.eqb_eq cs) in K; auto. eapply nth_error_In; eauto.
  Qed.
  Lemma state_calls_doc : forall x, doc_calls cf d (NState x) <-> doc_state names d (SName x) = true.
  Proof.
    intros x. unfold doc_calls, doc_state. rewrite andb_true_iff, orb_true_iff, !existsb_exists. split.
    - intros ([f ms] & H1 & [(n & E & H2)|([l rs] & H2 & [(k & E & _)|(r & H3 & H4 & H5)])]); cbn [fst snd] in *.
      + injection E as <-. subst f. split; [apply (ds_key _ _ DS _ _ H1)|]. left. exists (SName x, ms). split; auto. apply String.eqb_refl.
      + discriminate.
      + split; auto. right. exists (f, r). split; [apply drules_In; exists ms, l, rs; auto|]. cbn. rewrite H5. apply String.eqb_refl.
    - intros (EN & [([f ms] & H1 & H2)|([f r] & H1 & H2)]); cbn [fst snd] in H2.
      + destruct f as [y|v]; [|discriminate]. apply String.eqb_eq in H2. subst y. exists (SName x, ms). split; auto. left. exists x. auto.
      + apply drules_In in H1. destruct H1 as (ms & l & rs & K1 & K2 & K3). destruct (d_to r) as [y|v] eqn:ED; [|discriminate]. apply String.eqb_eq in H2. subst y.
        exists (f, ms). split; auto. right. exists (l, rs). split; auto. right. exists r. split; auto. cbn. auto.
  Qed.
  (** Without names: a state exists if its number is at most one in a rule. *)
  Lemma T_calls : exists cs, do_tcalls String.eqb String.eqb (cf_no_opl cf) true cs tp_empty = Some T /\ tinv string String.eqb string (cf_no_opl cf) cs T /\
    Forall (nodup_call string string) cs /\
    (forall f r, In (f, r) (drules d) -> exists i j o opl wc pre w, resolves cf T f i /\ resolves cf T (d_to r) j /\ In (TRule i j o opl wc pre w) cs /\ (wc = true \/ exists l, In l pre)) /\
    (forall i j o opl wc pre w, In (TRule i j o opl wc pre w) cs -> exists f r, In (f, r) (drules d) /\ resolves cf T f i /\ resolves cf T (d_to r) j /\ w = wval cf (d_w r)).
  Proof.
    destruct HE as (ncs & cs & E & F & Q). exists cs. split; auto. split; [eapply tcalls_inv; eauto; apply String.eqb_eq|].
    assert (FL : forall n, In n ncs -> exists c, In c cs /\ crel cf T n c).
    { clear - F. induction F as [|a b l l' H F IH]; [intros n []|]. intros n [<-|Hn]; [exists b; cbn; auto|]. destruct (IH n Hn) as (c & H1 & H2). exists c. cbn. auto. }
    assert (FR : forall c, In c cs -> exists n, In n ncs /\ crel cf T n c).
    { clear - F. induction F as [|a b l l' H F IH]; [intros n []|]. intros n [<-|Hn]; [exists a; cbn; auto|]. destruct (IH n Hn) as (c & H1 & H2). exists c. cbn. auto. }
    split; [|split].
    - apply Forall_forall. intros c Hc. destruct (FR c Hc) as ([l|s|f t o pre w] & _ & H); cbn in H; subst; cbn; auto. destruct H as (i & j & _ & _ & ->). cbn. unfold pre_labels. destruct (String.eqb pre "*"); repeat constructor. intros [].
    - intros f r Hr. apply drules_In in Hr. destruct Hr as (ms & l & rs & H1 & H2 & H3). assert (N : In (NRule f (d_to r) (d_op r) l (d_w r)) ncs) by (apply Q, doc_rules_calls; exists ms, rs, r; auto 10).
      destruct (FL _ N) as (c & Hc & i & j & R1 & R2 & ->). exists i, j. do 5 eexists. split; eauto. split; eauto. split; eauto. unfold pre_labels. destruct (String.eqb l "*"); auto. right. exists l. cbn. auto.
    - intros i j o opl wc pre w Hc. destruct (FR _ Hc) as ([l|s|f t o' pre' w'] & H1 & H2); cbn in H2; try discriminate. destruct H2 as (i' & j' & R1 & R2 & E2). injection E2 as <- <- _ _ _ _ ->.
      apply Q, doc_rules_calls in H1. destruct H1 as (ms & rs & x & K1 & K2 & K3 & -> & _ & ->). exists f, x. split; [apply drules_In; eauto 10|auto].
  Qed.
  Lemma T_wf : wf_pda (t_rules T).
  Proof. destruct T_calls as (cs & E & _ & N & _). eapply typed_wf; eauto; apply String.eqb_eq. Qed.
  Lemma T_bound : forall N, length (t_states T) <= N -> (forall f r i, In (f, r) (drules d) -> resolves cf T f i \/ resolves cf T (d_to r) i -> i < N) -> pd_n (t_rules T) <= N.
  Proof.
    intros N L H. destruct T_calls as (cs & E & _ & _ & _ & C). apply (calls_entries_gen cf true N cs [] tp_empty T); auto.
    - apply empty_tinv.
    - intros p e K. unfold rules_at in K. cbn in K. destruct p; destruct K.
    - intros p to o opl wc pre w K. destruct (C _ _ _ _ _ _ _ K) as (f & r & H1 & H2 & H3 & _). split; eapply H; eauto.
    - cbn. lia.
  Qed.
  Lemma T_n_names : names = true -> pd_n (t_rules T) = length (t_states T).
  Proof.
    intros EN. apply Nat.le_antisymm.
    - apply T_bound; auto. assert (X : forall s i, resolves cf T s i -> i < length (t_states T)).
      { intros [x|v] i; cbn; [|intros [K _]; congruence]. intros [_ K]. apply (tr_index_Some string String.eqb String.eqb_eq) in K. apply nth_error_Some. congruence. }
      intros f r i _ [K|K]; eapply X; eauto.
    - destruct T_good as [cs HI]. apply HI.
  Qed.
  Lemma T_no_names : names = false -> t_states T = [].
  Proof.
    intros EN. destruct (t_states T) as [|x l] eqn:E; auto. exfalso. assert (K : In x (t_states T)) by (rewrite E; cbn; auto). apply T_states, state_calls_doc in K. unfold doc_state in K. rewrite EN in K. discriminate.
  Qed.
  Lemma T_n_numbers : names = false -> forall v, v < pd_n (t_rules T) <-> existsb (fun r => is_up_to v (fst r) || is_up_to v (d_to (snd r))) (drules d) = true.
  Proof.
    intros EN v. split.
    - intros L. destruct (existsb _ _) eqn:EX; auto. exfalso. enough (pd_n (t_rules T) <= v) by lia. apply T_bound; [rewrite T_no_names by auto; cbn; lia|].
      intros f r i Hr Hi. destruct (Nat.lt_ge_cases i v) as [?|Lv]; auto. exfalso. enough (true = false) by discriminate. rewrite <- EX. symmetry. apply existsb_exists. exists (f, r). split; auto. cbn [fst snd]. apply orb_true_iff.
      destruct Hi as [Hi|Hi]; [left; destruct f as [x|k]|right; destruct (d_to r) as [x|k]]; cbn in *; destruct Hi as [Hi Hi']; try congruence; subst; apply Nat.leb_le; auto.
    - intros EX. apply existsb_exists in EX. destruct EX as ([f r] & Hr & Hv). cbn [fst snd] in Hv. destruct T_calls as (cs & E & HI & _ & C & _). destruct (C f r Hr) as (i & j & o & opl & wc & pre & w & R1 & R2 & Hin & Hl).
      destruct (ti_pre _ _ _ _ _ _ HI _ _ _ _ _ _ _ Hin) as [P1 P2]. destruct (find_labelid String.eqb (cf_no_opl cf) T o opl) as [lid|] eqn:EL; [|congruence].
      assert (S : exists x, stored (t_rules T) i (mk_rule j o lid w) x).
      { destruct Hl as [->|[l Hl]].
        - exists 0. apply (ti_rules _ _ _ _ _ _ HI). exists o, opl, true, pre, lid. cbn. auto 10.
        - specialize (P2 l Hl). destruct (exists_label String.eqb T l) as [x|] eqn:EX; [|congruence]. exists x. apply (ti_rules _ _ _ _ _ _ HI). exists o, opl, wc, pre, lid. cbn. split; auto. split; auto. split; auto. right. eauto. }
      destruct S as (x & ls & S & _). assert (Li : i < pd_n (t_rules T)). { destruct (Nat.lt_ge_cases i (pd_n (t_rules T))); auto. rewrite rules_at_overflow in S by auto. destruct S. }
      assert (Lj : j < pd_n (t_rules T)).
      { apply nth_error_Some in Li. unfold pd_n in Li. destruct (nth_error (pd_states (t_rules T)) i) as [s|] eqn:Es; [|congruence]. apply (wf_to _ T_wf i s (mk_rule j o lid w) ls); auto. unfold rules_at in S. erewrite nth_error_nth in S by eauto. auto. }
      apply orb_true_iff in Hv. destruct Hv as [Hv|Hv]; [destruct f as [y|k]|destruct (d_to r) as [y|k]]; cbn in *; try discriminate; apply Nat.leb_le in Hv; [destruct R1|destruct R2]; lia.
  Qed.
  (** The states of the document are the states of the pushdown automaton. *)
  Lemma known_doc : numbered names d -> (forall x, known_in T (SName x) = doc_state names d (SName x)) /\ (names = false -> forall v, known_in T (SNum v) = doc_state names d (SNum v)).
  Proof.
    intros HNum. split.
    - intros x. apply eq_true_iff_eq. rewrite <- state_calls_doc, <- T_states. cbn. destruct (exists_state String.eqb T x) as [i|] eqn:E.
      + split; auto. intros _. apply (tr_index_Some string String.eqb String.eqb_eq) in E. eapply nth_error_In; eauto.
      + split; [discriminate|]. intros K. exfalso. destruct T_good as [cs HI]. apply In_nth_error in K. destruct K as [i K]. apply (state_nth string String.eqb string String.eqb (cf_no_opl cf) String.eqb_eq cs) in K; auto. congruence.
    - intros EN v. apply eq_true_iff_eq. cbn [known_in doc_state]. rewrite EN, Nat.ltb_lt, T_n_numbers by auto. cbn [negb andb]. rewrite orb_true_iff, Nat.ltb_lt, !existsb_exists. split.
      + intros ([f r] & H1 & H2). cbn [fst snd] in H2. apply orb_true_iff in H2. destruct H2 as [H2|H2]; [|right; exists (f, r); auto]. left. destruct f as [y|k]; [discriminate|]. apply Nat.leb_le in H2.
        apply drules_In in H1. destruct H1 as (ms & l & rs & H1 & _). apply (ds_num _ _ DS) in H1. lia.
      + intros [L|(r & H1 & H2)].
        * apply (HNum EN) in L. apply existsb_exists in L. exact L.
        * exists r. split; auto. rewrite H2. apply orb_true_r.
  Qed.
  (** Every state has one reference. *)
  Lemma ref_exists : forall i, i < pd_n (t_rules T) -> exists s, resolves cf T s i.
  Proof.
    intros i L. destruct names eqn:EN.
    - rewrite T_n_names in L by auto. apply nth_error_Some in L. destruct (nth_error (t_states T) i) as [x|] eqn:E; [|congruence]. exists (SName x). cbn. split; auto. destruct T_good as [cs HI].
      apply (state_nth string String.eqb string String.eqb (cf_no_opl cf) String.eqb_eq cs); auto.
    - exists (SNum i). cbn. auto.
  Qed.
  Lemma ref_inj : forall s s' i, resolves cf T s i -> resolves cf T s' i -> s = s'.
  Proof.
    intros [x|v] [y|v'] i; cbn; intros [N1 R1] [N2 R2]; try congruence. apply (tr_index_Some string String.eqb String.eqb_eq) in R1. apply (tr_index_Some string String.eqb String.eqb_eq) in R2. congruence.
  Qed.
  Lemma ref_fun : forall s i i', resolves cf T s i -> resolves cf T s i' -> i = i'.
  Proof. intros [x|v] i i'; cbn; intros [N1 R1] [N2 R2]; congruence. Qed.
  Lemma ref_known : forall s, (exists i, resolves cf T s i /\ i < pd_n (t_rules T)) <-> ref_kind names s /\ known_in T s = true.
  Proof.
    intros [x|v]; cbn.
    - split; [intros (i & [H1 H2] & _); rewrite H2; auto|]. intros [H1 H2]. destruct (exists_state String.eqb T x) as [i|] eqn:E; [|discriminate]. exists i. split; auto. rewrite T_n_names by auto.
      apply (tr_index_Some string String.eqb String.eqb_eq) in E. apply nth_error_Some. congruence.
    - rewrite Nat.ltb_lt. split; [intros (i & [H1 ->] & H2); auto|]. intros [H1 H2]. exists v. auto.
  Qed.
End Pda.

(** ** Steps *)
Lemma eff_wf : forall cf T Q, eff cf tp_empty T Q -> wf_pda (t_rules T).
Proof.
  intros cf T Q (ncs & cs & E & F & _). eapply typed_wf; [apply String.eqb_eq|apply String.eqb_eq| |exact E]. clear - F. induction F as [|a b l l' H F IH]; constructor; auto.
  destruct a as [k|s|f t o pre w]; cbn in H; subst; cbn; auto. destruct H as (i & j & _ & _ & ->). cbn. unfold pre_labels. destruct (String.eqb pre "*"); repeat constructor. intros [].
Qed.
(** ** Runs of a rule store and of a document with the same rules *)
Section Steps.
  Variable cf : jcfg.
  Variables (d : doc) (L : list string) (T2 : tp) (cs : list (tcall string string)) (rs : list (trule string)).
  Hypothesis HWF : wf_pda (t_rules T2).
  Hypothesis HI : tinv string String.eqb string (cf_no_opl cf) cs T2.
  Hypothesis E : all_rules "" T2 = Some rs.
  Hypothesis A : forall r, In r rs -> exists m, written_over L d m /\ denotes cf T2 m r.
  Hypothesis B : forall m, written_over L d m -> exists r, In r rs /\ denotes cf T2 m r.
  Let n := pd_n (t_rules T2).
  Notation R := (pda_rules (t_rules T2)).
  Lemma sym : forall l i, exists_label String.eqb T2 l = Some i <-> get_symbol T2 i = Some l.
  Proof. intros l i. apply (label_nth string String.eqb string (cf_no_opl cf) String.eqb_eq cs); auto. Qed.
  Lemma res_inj : forall s s' i, resolves cf T2 s i -> resolves cf T2 s' i -> s = s'.
  Proof. intros [x|v] [y|u] i; cbn; intros [H1 H2] [H3 H4]; try congruence. apply (tr_index_Some string String.eqb String.eqb_eq) in H2, H4. congruence. Qed.
  Lemma res_fun : forall s i i', resolves cf T2 s i -> resolves cf T2 s i' -> i = i'.
  Proof. intros [x|v] i i'; cbn; intros [H1 H2] [H3 H4]; congruence. Qed.
  Definition op_is (o : op) (opl : string) (so : sop) : Prop :=
    match o with
    | POP => so = SPop
    | NOOP => so = SNoop
    | SWAP => exists l, get_symbol T2 l = Some opl /\ so = SSwap l
    | PUSH => exists l, get_symbol T2 l = Some opl /\ so = SPush l
    end.
  Lemma rules_stored : (forall sr, R sr <-> exists r, In r rs /\ tr_from r = s_from sr /\ get_symbol T2 (s_pre sr) = Some (tr_pre r) /\ tr_to r = s_to sr /\ op_is (tr_op r) (tr_opl r) (s_op sr)).
  Proof.
    assert (AR := all_rules_entries T2 rs E). assert (HN := ti_n _ _ _ _ _ _ HI). intros sr. split.
    - intros (s & r & ls & H1 & H2 & H3 & H4 & H5). assert (H2' : In (r, ls) (rules_at (t_rules T2) (s_from sr))) by (unfold rules_at; erewrite nth_error_nth by eauto; auto).
      rewrite HN in H3. assert (LP : s_pre sr < length (t_labels T2)). { unfold matches in H3. destruct (wild ls); auto. eapply (ti_range _ _ _ _ _ _ HI); eauto. }
      apply nth_error_Some in LP. destruct (nth_error (t_labels T2) (s_pre sr)) as [p|] eqn:EP; [|congruence].
      assert (X : exists o, (match r_op r with POP | NOOP => Some "" | _ => get_symbol T2 (r_opl r) end) = Some o).
      { destruct (r_op r) eqn:EO; eauto; assert (LO : r_opl r < length (t_labels T2)) by (rewrite <- HN; apply (wf_opl _ HWF _ _ _ _ H1 H2); auto); apply nth_error_Some in LO; unfold get_symbol, ts_at; destruct (nth_error (t_labels T2) (r_opl r)); eauto; congruence. }
      destruct X as [o X]. exists (mk_trule (s_from sr) p (r_to r) (r_op r) o (r_w r)). cbn [tr_from tr_pre tr_to tr_op tr_opl]. split; [|split; [|split; [|split]]]; auto.
      + apply AR. exists (s_from sr), r, ls, (s_pre sr). split; auto. split; auto. unfold to_trule, get_symbol, ts_at. rewrite EP. cbn [obind]. fold (get_symbol T2 (r_opl r)). unfold get_symbol, ts_at in X. rewrite X. reflexivity.
      + rewrite H5. unfold sop_of, op_is. destruct (r_op r); cbn in X; eauto.
    - intros (r & H1 & H2 & H3 & H4 & H5). apply AR in H1. destruct H1 as (p & rl & ls & i & K1 & K2 & K3). unfold to_trule in K3. destruct (get_symbol T2 i) as [a|] eqn:EA; [|discriminate]. cbn [obind] in K3.
      destruct (match r_op rl with POP | NOOP => Some "" | _ => get_symbol T2 (r_opl rl) end) as [o|] eqn:EO; [|discriminate]. cbn [obind] in K3. injection K3 as <-. cbn [tr_from tr_pre tr_to tr_op tr_opl] in *. subst p.
      assert (i = s_pre sr) as ->. { apply sym in EA. apply sym in H3. congruence. }
      assert (Lp : s_from sr < pd_n (t_rules T2)). { destruct (Nat.lt_ge_cases (s_from sr) (pd_n (t_rules T2))); auto. rewrite rules_at_overflow in K1 by auto. destruct K1. }
      apply nth_error_Some in Lp. destruct (nth_error (pd_states (t_rules T2)) (s_from sr)) as [s|] eqn:Es; [|congruence]. exists s, rl, ls. split; auto. split; [unfold rules_at in K1; erewrite nth_error_nth in K1 by eauto; auto|].
      split; [rewrite HN; auto|]. split; auto. unfold sop_of. unfold op_is in H5. destruct (r_op rl); auto; destruct H5 as (l & H5 & ->); apply sym in H5; apply sym in EO; congruence.
  Qed.

  Definition wrel (w : list string) (v : list nat) : Prop := Forall2 (fun l x => exists_label String.eqb T2 l = Some x) w v.
  Definition srel (c : dconfig) (c' : config) : Prop := resolves cf T2 (fst c) (fst c') /\ fst c' < n /\ wrel (snd c) (snd c').
  Lemma step_doc : forall c1 c2 e1, step R c1 c2 -> srel e1 c1 -> exists e2, dstep L d e1 e2 /\ srel e2 c2.
  Proof.
    intros c1 c2 [s w] (sr & HR & HB) (H1 & H2 & H3). assert (C := rules_stored). assert (HR' := HR). apply C in HR. destruct HR as (r & K1 & K2 & K3 & K4 & K5). destruct HB as [v]. cbn [fst snd] in *.
    inversion H3 as [|a x w' v' HX HW]; subst. destruct (A r K1) as (m & M1 & M2 & M3 & M4 & M5 & M6). rewrite K2 in M2. rewrite K4 in M4. assert (n_from m = s) by (eapply res_inj; eauto). subst s.
    assert (a = n_pre m) by (apply sym in HX; congruence). subst a. exists (n_to m, apply_dop (n_op m) (n_pre m) w'). split; [constructor; auto|]. split; auto. split.
    - cbn. destruct HR' as (st & rl & ls & N1 & N2 & N3 & N4 & N5). rewrite N4. eapply (wf_to _ HWF); eauto.
    - cbn [snd]. unfold apply_op, apply_dop. destruct (n_op m) as [|l|l].
      + rewrite M6 in K5. cbn in K5. rewrite K5. auto.
      + destruct M6 as [[M6 M7]|[M6 M7]]; rewrite M6 in K5; cbn in K5.
        * destruct K5 as (y & Y & ->). constructor; auto. apply sym. congruence.
        * rewrite K5. subst l. constructor; auto.
      + destruct M6 as [M6 M7]. rewrite M6 in K5. cbn in K5. destruct K5 as (y & Y & ->). constructor; [apply sym; congruence|constructor; auto].
  Qed.
  Lemma doc_step : forall e1 e2 c1, dstep L d e1 e2 -> srel e1 c1 -> exists c2, step R c1 c2 /\ srel e2 c2.
  Proof.
    intros e1 e2 [i v] HD (H1 & H2 & H3). assert (C := rules_stored). destruct HD as [m w HW]. cbn [fst snd] in *. inversion H3 as [|a x w' v' HX HV]; subst.
    destruct (B m HW) as (r & K1 & M2 & M3 & M4 & M5 & M6). assert (tr_from r = i) by (eapply res_fun; eauto).
    assert (OP : exists so, op_is (tr_op r) (tr_opl r) so).
    { assert (K1' := K1). apply (all_rules_entries T2 rs E) in K1'. destruct K1' as (p & rl & ls & k & _ & _ & K3). unfold to_trule in K3. destruct (get_symbol T2 k) as [b|]; [|discriminate]. cbn [obind] in K3.
      destruct (match r_op rl with POP | NOOP => Some "" | _ => get_symbol T2 (r_opl rl) end) as [o|] eqn:EO; [|discriminate]. cbn [obind] in K3. injection K3 as <-. cbn [tr_op tr_opl]. unfold op_is. destruct (r_op rl); eauto. }
    destruct OP as [so OP].
    assert (HR : R (mk_srule i x (tr_to r) so)). { apply C. exists r. cbn. split; auto. split; auto. split; [apply sym; congruence|auto]. }
    exists (tr_to r, apply_op so x v'). split.
    - exists (mk_srule i x (tr_to r) so). split; auto. apply (step_by_intro (mk_srule i x (tr_to r) so) v').
    - split; auto. split.
      + cbn. destruct HR as (st & rl & ls & N1 & N2 & N3 & N4 & N5). cbn in N4. rewrite N4. eapply (wf_to _ HWF); eauto.
      + cbn [snd]. unfold apply_op, apply_dop. destruct (n_op m) as [|l|l].
        * rewrite M6 in OP. cbn in OP. rewrite OP. auto.
        * destruct M6 as [[M6 M7]|[M6 M7]]; rewrite M6 in OP; cbn in OP.
          -- destruct OP as (y & Y & ->). constructor; auto. apply sym. congruence.
          -- rewrite OP. subst l. constructor; auto.
        * destruct M6 as [M6 M7]. rewrite M6 in OP. cbn in OP. destruct OP as (y & Y & ->). constructor; [apply sym; congruence|constructor; auto].
  Qed.
  Lemma srel_reach_doc : forall c1 c2, reach R c1 c2 -> forall e1, srel e1 c1 -> exists e2, dreach L d e1 e2 /\ srel e2 c2.
  Proof.
    intros c1 c2 H. induction H as [c|c1 c2 c3 H HR IH]; intros e1 K; [exists e1; split; auto; constructor|]. destruct (step_doc _ _ _ H K) as (e2 & K1 & K2). destruct (IH e2 K2) as (e3 & K3 & K4). exists e3. split; auto. econstructor; eauto.
  Qed.
  Lemma srel_doc_reach : forall e1 e2, dreach L d e1 e2 -> forall c1, srel e1 c1 -> exists c2, reach R c1 c2 /\ srel e2 c2.
  Proof.
    intros e1 e2 H. induction H as [c|e1 e2 e3 H HR IH]; intros c1 K; [exists c1; split; auto; constructor|]. destruct (doc_step _ _ _ H K) as (c2 & K1 & K2). destruct (IH c2 K2) as (c3 & K3 & K4). exists c3. split; auto. econstructor; eauto.
  Qed.
End Steps.

Section Sem.
  Variable cf : jcfg.
  Notation names := (cf_names cf).
  Variables (d : doc) (T T2 : tp) (new : list string).
  Hypothesis DS : doc_shape names d.
  Hypothesis HE : eff cf tp_empty T (doc_calls cf d).
  Hypothesis HS : same_pda T T2.
  Hypothesis HL : t_labels T2 = (t_labels T ++ new)%list.
  Let L := (doc_labels d ++ new)%list.
  Let n := pd_n (t_rules T2).
  Notation R := (pda_rules (t_rules T2)).

  Lemma T2_eff : eff cf tp_empty T2 (fun c => doc_calls cf d c \/ exists l, c = NLabel l /\ In l new).
  Proof. eapply eff_trans; [apply empty_good|exact HE|]. apply labels_eff; auto. eapply T_good; eauto. Qed.
  Lemma T2_wf : wf_pda (t_rules T2).
  Proof. eapply eff_wf. apply T2_eff. Qed.
  Lemma T2_good : exists cs, tinv string String.eqb string (cf_no_opl cf) cs T2.
  Proof. apply (eff_good cf tp_empty T2 _ (empty_good cf) T2_eff). Qed.
  Lemma T2_n : n = pd_n (t_rules T).
  Proof. unfold n, pd_n. rewrite (sp_rules _ _ HS). reflexivity. Qed.
  Lemma T2_res : forall s i, resolves cf T2 s i <-> resolves cf T s i.
  Proof. intros [x|v] i; cbn; [|tauto]. unfold exists_state. rewrite (sp_states _ _ HS). tauto. Qed.
  Definition crel2 (c : dconfig) (c' : config) : Prop := resolves cf T (fst c) (fst c') /\ fst c' < n /\ wrel T2 (snd c) (snd c').
  Lemma crel2_srel : forall e c, crel2 e c <-> srel cf T2 e c.
  Proof. intros e c. unfold crel2, srel. rewrite T2_res. tauto. Qed.
  Lemma reach_doc : forall c1 c2, reach R c1 c2 -> forall e1, crel2 e1 c1 -> exists e2, dreach L d e1 e2 /\ crel2 e2 c2.
  Proof.
    intros c1 c2 H e1 K. destruct (doc_rules_over cf d new T2 T2_eff) as (rs & E & A & B & _). destruct T2_good as [cs HI]. apply crel2_srel in K. destruct (srel_reach_doc cf d L T2 cs rs T2_wf HI E A c1 c2 H e1 K) as (e2 & K1 & K2). exists e2. split; auto. apply crel2_srel. auto.
  Qed.
  Lemma doc_reach : forall e1 e2, dreach L d e1 e2 -> forall c1, crel2 e1 c1 -> exists c2, reach R c1 c2 /\ crel2 e2 c2.
  Proof.
    intros e1 e2 H c1 K. destruct (doc_rules_over cf d new T2 T2_eff) as (rs & E & A & B & _). destruct T2_good as [cs HI]. apply crel2_srel in K. destruct (srel_doc_reach cf d L T2 cs rs T2_wf HI E B e1 e2 H c1 K) as (c2 & K1 & K2). exists c2. split; auto. apply crel2_srel. auto.
  Qed.
End Sem.

(** ** Both automata *)
Lemma written_ext : forall L L' d r, (forall x, In x L <-> In x L') -> written_over L d r -> written_over L' d r.
Proof.
  intros L L' d r H (ms & l & rs & x & H1 & H2 & H3 & H4 & H5 & H6). exists ms, l, rs, x. do 5 (split; auto). destruct (String.eqb l "*"); auto. destruct H6 as [H6 H7]. split; auto. apply H; auto.
Qed.
Lemma dreach_ext : forall L L' d, (forall x, In x L <-> In x L') -> forall e e', dreach L d e e' -> dreach L' d e e'.
Proof.
  intros L L' d H e e' K. induction K as [c|c1 c2 c3 K1 K2 IH]; [constructor|]. apply dr_step with c2; auto. destruct K1 as [r w K1]. constructor. eapply written_ext; eauto.
Qed.
Lemma dpath_labels : forall E s w s', dpath E s w s' -> forall l, In l w -> l <> "" /\ exists a b, In (a, l, b) E.
Proof. intros E s w s' H. induction H as [s|s l s1 w s2 H1 H2 H IH|s s1 w s2 H1 H IH]; intros k Hk; [destruct Hk| |auto]. destruct Hk as [<-|Hk]; auto. split; auto. eauto. Qed.
Lemma apath_labels : forall E q w q', apath E q w q' -> forall x, In x w -> exists a b, E a (Some x) b.
Proof. intros E q w q' H. induction H as [q|q l q1 w q2 H1 H IH|q q1 w q2 H1 H IH]; intros x Hx; [destruct Hx| |auto]. destruct Hx as [<-|Hx]; eauto. Qed.
Lemma word_names : forall (T : tp) v, NoDup (t_labels T) -> (forall x, In x v -> x < length (t_labels T)) -> exists w, Forall2 (fun l x => exists_label String.eqb T l = Some x) w v.
Proof.
  intros T v N. induction v as [|x v IH]; intros H; [exists []; constructor|]. destruct IH as [w IH]; [intros y Hy; apply H; cbn; auto|]. assert (Lx : x < length (t_labels T)) by (apply H; cbn; auto). apply nth_error_Some in Lx.
  destruct (nth_error (t_labels T) x) as [l|] eqn:E; [|congruence]. exists (l :: w). constructor; auto. apply (tr_index_nth string String.eqb String.eqb_eq); auto.
Qed.
Lemma word_numbers : forall (T : tp) w, NoDup (t_labels T) -> (forall l, In l w -> In l (t_labels T)) -> exists v, Forall2 (fun l x => exists_label String.eqb T l = Some x) w v.
Proof.
  intros T w N. induction w as [|l w IH]; intros H; [exists []; constructor|]. destruct IH as [v IH]; [intros y Hy; apply H; cbn; auto|]. assert (Hl : In l (t_labels T)) by (apply H; cbn; auto). apply In_nth_error in Hl. destruct Hl as [x E].
  exists (x :: v). constructor; auto. apply (tr_index_nth string String.eqb String.eqb_eq); auto.
Qed.
Section Both.
  Variable cf : jcfg.
  Notation names := (cf_names cf).
  Variables (ord : nat -> list nat -> list nat) (d : doc) (T T1 T2 : tp) (A1 A2 : aut) (D1 D2 : adoc).
  Hypothesis DS : doc_shape names d.
  Hypothesis HE : eff cf tp_empty T (doc_calls cf d).
  Hypothesis R1 : read_as names ord T D1 T1 A1.
  Hypothesis R2 : read_as names ord T1 D2 T2 A2.
  Let n := pd_n (t_rules T2).

  Lemma S1 : same_pda T T1. Proof. apply R1. Qed.
  Lemma S2 : same_pda T T2. Proof. destruct (ra_pda _ _ _ _ _ _ R2) as [B1 B2 B3 B4]. destruct S1 as [C1 C2 C3 C4]. constructor; congruence. Qed.
  Lemma n_T : n = pd_n (t_rules T). Proof. unfold n, pd_n. rewrite (sp_rules _ _ S2). reflexivity. Qed.
  Lemma n_T1 : n = pd_n (t_rules T1). Proof. unfold n, pd_n. rewrite (sp_rules _ _ S2), (sp_rules _ _ S1). reflexivity. Qed.
  Lemma more_labels : exists new1 new2, t_labels T1 = (t_labels T ++ new1)%list /\ t_labels T2 = (t_labels T1 ++ new2)%list /\ t_labels T2 = (t_labels T ++ (new1 ++ new2))%list /\
    forall x, In x (doc_labels d ++ (new1 ++ new2))%list <-> In x (doc_labels d ++ adoc_labels D1 ++ adoc_labels D2)%list.
  Proof.
    destruct (ra_labels _ _ _ _ _ _ R1) as (n1 & E1 & I1). destruct (ra_labels _ _ _ _ _ _ R2) as (n2 & E2 & I2). exists n1, n2. split; auto. split; auto. split; [rewrite E2, E1, app_assoc; auto|].
    assert (LT : forall x, In x (t_labels T) -> In x (doc_labels d)).
    { intros x Hx. destruct (doc_rules cf d T HE) as (rs & _ & _ & _ & H & _). apply H. destruct (word_numbers T [x]) as [v V]; [destruct (T_good cf d T HE) as [cs HI]; apply HI|intros l [<-|[]]; auto|]. inversion V; subst; eauto. }
    intros x. rewrite !in_app_iff. split; [intros [H|[H|H]]; auto|]. intros [H|[H|H]]; auto.
    - apply (ra_in _ _ _ _ _ _ R1) in H. rewrite E1 in H. apply in_app_or in H. destruct H; auto.
    - apply (ra_in _ _ _ _ _ _ R2) in H. rewrite E2, E1, !in_app_iff in H. destruct H as [[H|H]|H]; auto.
  Qed.
  Lemma label_up : forall l x, exists_label String.eqb T1 l = Some x -> exists_label String.eqb T2 l = Some x.
  Proof.
    intros l x H. destruct more_labels as (n1 & n2 & _ & E & _). apply (tr_index_Some string String.eqb String.eqb_eq) in H. apply (tr_index_nth string String.eqb String.eqb_eq); [apply S2|]. rewrite E. rewrite nth_error_app1; auto. apply nth_error_Some. congruence.
  Qed.
  Lemma words_up : forall w v, Forall2 (fun l x => exists_label String.eqb T1 l = Some x) w v -> wrel T2 w v.
  Proof. intros w v H. eapply f2_impl; [|exact H]. intros l x K. apply label_up; auto. Qed.
  Lemma state_id_res : forall s i, resolves cf T s i /\ i < n <-> state_id names T s i.
  Proof.
    intros [x|v] i; cbn; rewrite n_T.
    - split; [intros [[H1 H2] _]; auto|]. intros [H1 H2]. split; auto. apply (tr_index_Some string String.eqb String.eqb_eq) in H2. rewrite (T_n_names cf d T HE) by auto. apply nth_error_Some. congruence.
    - split; [intros [[H1 ->] H2]; auto|]. intros (H1 & H2 & ->). auto.
  Qed.
  Lemma state_id_res1 : forall s i, resolves cf T s i /\ i < n <-> state_id names T1 s i.
  Proof.
    intros s i. rewrite state_id_res. destruct s as [x|v]; cbn.
    - unfold exists_state. rewrite (sp_states _ _ S1). tauto.
    - rewrite <- n_T, <- n_T1. tauto.
  Qed.
  Lemma inst_sem : forall wk, numbered names d -> (can_reach (pda_rules (t_rules T2)) (aut_lang n A1) (aut_lang n A2) <-> inst_reach (mk_idoc names wk d D1 D2)).
  Proof.
    intros wk HNum. destruct more_labels as (n1 & n2 & E1 & E2 & E3 & EL). unfold can_reach, inst_reach. cbn [id_names id_pda id_first id_second]. unfold id_labels. cbn [id_pda id_first id_second]. destruct (known_doc cf d T DS HE HNum) as [KN KV].
    assert (KD : forall s, doc_state names d s = true <-> ref_kind names s /\ known_in T s = true).
    { intros [x|v]; cbn [ref_kind].
      - rewrite KN. split; [|tauto]. intros H. split; auto. cbn in H. destruct names; auto.
      - destruct names eqn:EN; [split; [cbn; discriminate|intros [K _]; discriminate]|]. rewrite (KV eq_refl v). tauto. }
    split.
    - intros ([i v] & [j u] & (LA1 & f & P1 & F1) & HA2 & HR). cbn [fst snd] in *. destruct (ref_exists cf d T DS HE i) as [s HSi]; [rewrite <- n_T; auto|].
      destruct (word_names T1 v (sp_nd _ _ S1)) as [w HW].
      { intros x Hx. destruct (apath_labels _ _ _ _ P1 x Hx) as (a & b & He). rewrite <- (sp_n _ _ S1). apply (ra_range _ _ _ _ _ _ R1 _ _ _ He); auto. }
      assert (DA : daccepts D1 s w). { apply (ra_lang _ _ _ _ _ _ R1 s i w v); auto; [apply state_id_res; auto|]. rewrite <- n_T. split; auto. eauto. }
      destruct (reach_doc cf d T T2 (n1 ++ n2) HE S2 E3 _ _ HR (s, w)) as ([s' w'] & HD & H1 & H2 & H3).
      { split; auto. split; auto. apply words_up; auto. }
      cbn [fst snd] in *. exists s, w, s', w'. split; [|split; [|split]]; auto.
      + apply KD. apply (ref_known cf d T HE). exists i. rewrite <- n_T. auto.
      + eapply dreach_ext; eauto.
      + apply (ra_lang _ _ _ _ _ _ R2 s' j w' u); auto; [apply state_id_res1; auto|]. rewrite <- n_T1. auto.
    - intros (s & w & s' & w' & HK & DA1 & HD & DA2). apply KD in HK. apply (ref_known cf d T HE) in HK. destruct HK as (i & HSi & Li). rewrite <- n_T in Li.
      destruct (word_numbers T1 w (sp_nd _ _ S1)) as [v HW].
      { intros l Hl. destruct DA1 as (f & _ & P). destruct (dpath_labels _ _ _ _ P l Hl) as (K1 & a & b & K2). apply (ra_in _ _ _ _ _ _ R1). apply adoc_labels_In. eauto. }
      destruct (doc_reach cf d T T2 (n1 ++ n2) HE S2 E3 (s, w) (s', w')) with (c1 := (i, v)) as ([j u] & HR & H1 & H2 & H3).
      { eapply dreach_ext; [|exact HD]. intros x. symmetry. apply EL. }
      { split; auto. split; auto. apply words_up; auto. }
      cbn [fst snd] in *. exists (i, v), (j, u). split; [|split]; auto.
      + rewrite n_T. apply (ra_lang _ _ _ _ _ _ R1 s i w v); auto. apply state_id_res; auto.
      + rewrite n_T1. apply (ra_lang _ _ _ _ _ _ R2 s' j w' u); auto. apply state_id_res1; auto.
  Qed.
  Lemma both_wf : wf_pda (t_rules T2).
  Proof. destruct more_labels as (n1 & n2 & _ & _ & E3 & _). eapply T2_wf; [exact HE|exact S2|exact E3]. Qed.
  (** Use with the solvers. *)
  Hypothesis HO : forall q l, Permutation (ord q l) l.
  Lemma first_ok : (forall s l s', In (s, l, s') (ad_edges D1) -> l <> "") -> pre_ok (t_rules T2) A1.
  Proof.
    intros HX. destruct more_labels as (n1 & n2 & _ & E & _). constructor.
    - fold n. rewrite n_T. apply (ra_n _ _ _ _ _ _ R1).
    - intros q l. rewrite (ra_ord _ _ _ _ _ _ R1). auto.
    - apply (ra_nd _ _ _ _ _ _ R1).
    - intros q l q' He. destruct (ra_range _ _ _ _ _ _ R1 q l q' He) as (K1 & K2 & K3). split; auto. split; auto. destruct l as [x|]; [exists x; split; auto; specialize (K3 x eq_refl); rewrite (sp_n _ _ S1) in K3; rewrite (sp_n _ _ S2), E, app_length; lia|].
      exfalso. exact (ra_eps _ _ _ _ _ _ R1 HX q q' He).
  Qed.
  Lemma second_ok : (forall s l s', In (s, l, s') (ad_edges D2) -> l <> "") -> pre_ok (t_rules T2) A2.
  Proof.
    intros HX. constructor.
    - fold n. rewrite n_T1. apply (ra_n _ _ _ _ _ _ R2).
    - intros q l. rewrite (ra_ord _ _ _ _ _ _ R2). auto.
    - apply (ra_nd _ _ _ _ _ _ R2).
    - intros q l q' He. destruct (ra_range _ _ _ _ _ _ R2 q l q' He) as (K1 & K2 & K3). split; auto. split; auto. destruct l as [x|]; [exists x; auto|]. exfalso. exact (ra_eps _ _ _ _ _ _ R2 HX q q' He).
  Qed.
  Lemma id_doc_state : numbered names d -> forall s i, state_id names T s i -> doc_state names d s = true.
  Proof.
    intros HNum s i H. destruct (known_doc cf d T DS HE HNum) as [KN KV]. destruct s as [x|v]; cbn in H.
    - rewrite <- KN. cbn. destruct H as [_ ->]. auto.
    - destruct H as (EN & H & _). rewrite <- KV by auto. cbn. apply Nat.ltb_lt. auto.
  Qed.
  Lemma first_no_in : numbered names d -> (forall s l s', In (s, l, s') (ad_edges D1) -> doc_state names d s' = false) -> no_in (t_rules T2) A1.
  Proof.
    intros HNum H q l q' He. fold n. rewrite n_T. apply (ra_no_in _ _ _ _ _ _ R1) with (q := q) (l := l); auto. intros s k s' i K1 K2. apply id_doc_state in K2; auto. rewrite (H _ _ _ K1) in K2. discriminate.
  Qed.
  Lemma second_no_in : numbered names d -> (forall s l s', In (s, l, s') (ad_edges D2) -> doc_state names d s' = false) -> no_in (t_rules T2) A2.
  Proof.
    intros HNum H q l q' He. fold n. rewrite n_T1. apply (ra_no_in _ _ _ _ _ _ R2) with (q := q) (l := l); auto. intros s k s' i K1 K2. apply state_id_res1, state_id_res, id_doc_state in K2; auto. rewrite (H _ _ _ K1) in K2. discriminate.
  Qed.
  Lemma no_negative : (forall f r, In (f, r) (drules d) -> (0 <= wval cf (d_w r))%Z) -> lookup_ok (t_rules T2).
  Proof.
    intros H p r ls Hin _ _. unfold rules_at in Hin. rewrite (sp_rules _ _ S2) in Hin. fold (rules_at (t_rules T) p) in Hin.
    destruct (T_calls cf d T HE) as (cs & E & HI & _ & _ & C). destruct (calls_entries_gen cf true (Nat.max (pd_n (t_rules T)) (S (list_max (map (fun c => match c with TRule p to _ _ _ _ _ => Nat.max p to | _ => 0 end) cs)))) cs [] tp_empty T) as [K _]; auto.
    - apply empty_tinv.
    - assert (X := ti_size _ _ _ _ _ _ HI). lia.
    - intros q e Hq. unfold rules_at in Hq. cbn in Hq. destruct q; destruct Hq.
    - intros q to o opl wc pre w K. assert (X : Nat.max q to <= list_max (map (fun c => match c with TRule p to _ _ _ _ _ => Nat.max p to | _ => 0 end) cs)).
      { assert (F := proj1 (list_max_le (map (fun c => match c with TRule p to _ _ _ _ _ => Nat.max p to | _ => 0 end) cs) _) (Nat.le_refl _)). rewrite Forall_forall in F. apply F. apply in_map_iff. eexists; split; [|exact K]. reflexivity. }
      lia.
    - cbn. lia.
    - destruct (K p (r, ls) Hin) as (o & opl & wc & pre & K1). cbn [fst] in K1. apply C in K1. destruct K1 as (f & x & K1 & _ & _ & ->). eauto.
  Qed.
End Both.
