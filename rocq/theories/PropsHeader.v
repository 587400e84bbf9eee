(** Properties of the concrete reconstruction of CegarPdaFactory.h: C50 (headers), C55 (the search), C56 (progress). *)
From Coq Require Import List Arith Lia Bool Permutation Sorted.
From Verif Require Import Base BaseFacts Spec SpecFacts PdaModel PdaProof NfaModel NfaProof RegexProof ConstructProof NfaQueryModel NfaQueryProof ContainersModel ContainersProof
  TrieModel RefineModel MappingProof RefineProof PairProof PropsNfaQuery PropsRefine HeaderModel HeaderProof SearchProof ExHelp.
Import ListNotations.

(** *** C50 *)
(** enters, follows, represents, recon_ok, suits, typed and splits are in HeaderProof. Words along a path that ends in an
    accepting state are in the language of the NFA. *)
Lemma follows_path : forall N p0 path w, follows N (p0 :: path) w -> exists q0, In q0 (n_init N) /\ apath (sts_edges (n_states N)) q0 w (last path p0).
Proof.
  intros N p0 path. induction path as [|p path IH] using rev_ind; intros w [L F].
  - destruct w as [|x [|y w]]; try discriminate. destruct (F 0 x eq_refl) as (q & Hq & s & d & H1 & H2 & H3). injection Hq as <-. exists s. split; auto. econstructor; eauto.
  - destruct w as [|x w] using rev_ind; [cbn in L; lia|]. rewrite last_last. rewrite app_length in L. cbn in L. rewrite app_length in L. cbn in L.
    destruct (IH w) as (q0 & H0 & Hp).
    + split; [cbn; lia|]. intros i y Hi. pose proof (nth_error_lt _ _ _ _ Hi) as Li. assert (Hi': nth_error (w ++ [x]) i = Some y) by (rewrite nth_error_app1; auto).
      destruct (F _ _ Hi') as (q & Hq & E). assert (C: forall j, j < length w -> nth_error (p0 :: path ++ [p]) j = nth_error (p0 :: path) j).
      { intros j Hj. change (p0 :: path ++ [p]) with ((p0 :: path) ++ [p]). apply nth_error_app1. cbn. lia. }
      rewrite C in Hq by auto. exists q. split; auto. destruct i as [|j]; auto. rewrite C in E by lia. auto.
    + assert (Hx: nth_error (w ++ [x]) (length w) = Some x) by (rewrite nth_error_app2, Nat.sub_diag by lia; auto).
      destruct (F _ _ Hx) as (q & Hq & E). exists q0. split; auto. destruct (length w) as [|k] eqn:Ek; [lia|]. destruct E as (p1 & Hp1 & s & d & [<-|[]] & E1 & E2).
      change (p0 :: path ++ [p]) with ((p0 :: path) ++ [p]) in Hq, Hp1. rewrite nth_error_app2 in Hq by (cbn; lia). rewrite nth_error_app1 in Hp1 by (cbn; lia).
      replace (S k - length (p0 :: path)) with 0 in Hq by (cbn; lia). injection Hq as <-.
      assert (Hl: nth_error (p0 :: path) k = Some (last path p0)).
      { assert (k = length path) by lia. subst k. clear. revert p0. induction path as [|a l IH]; intros p0; auto. cbn [length]. change (nth_error (p0 :: a :: l) (S (length l))) with (nth_error (a :: l) (length l)). rewrite IH.
        f_equal. destruct l as [|b l] using rev_ind; auto. rewrite last_last. change (a :: l ++ [b]) with ((a :: l) ++ [b]). rewrite last_last. auto. }
      rewrite Hl in Hp1. injection Hp1 as <-. eapply apath_app; eauto. econstructor; eauto.
Qed.
Theorem C50_paths_are_words : forall N path w, follows N path w -> match path with [] => exists q, In q (n_init N) /\ sts_acc (n_states N) q | p :: l => sts_acc (n_states N) (last l p) end -> nfa_lang N w.
Proof.
  intros N [|p path] w F A.
  - destruct F as [L _]. destruct w; [|discriminate]. destruct A as (q & H1 & H2). exists q, q. split; auto. split; auto. constructor.
  - destruct (follows_path N p path w F) as (q & H1 & H2). exists q, (last path p). auto.
Qed.
Print Assumptions C50_paths_are_words.

(** A step of the trace on concrete stacks (top first): the top is pre, p more labels go, post (bottom to top) comes. *)
Definition rewrites (op : nat * list nat * nat) (s s' : list nat) : Prop :=
  let '(pre, post, p) := op in exists t, s = pre :: t /\ s' = rev post ++ skipn p t.
(** One update_header: it succeeds iff some represented stack has pre on top; then the new header represents exactly the
    results of the step, and the returned labels are possible values of the wildcards it popped, for a stack with the same
    remaining labels. *)
Theorem C50_update_header : forall R h pre post p, recon_ok R -> 1 + p <= h_size h -> h_wild h <= length (rc_ipath R) ->
  exists r, update_header R h pre post p = Some r /\
    match r with
    | None => forall w s, represents R h w s -> hd_error s <> Some pre
    | Some (h', spec) => h_wild h' <= length (rc_ipath R) /\ h_size h' + 1 + p = h_size h + length post /\
        (forall w s s', represents R h w s -> rewrites (pre, post, p) s s' -> represents R h' w s') /\
        (forall w' s', represents R h' w' s' -> exists w s c, represents R h w s /\ rewrites (pre, post, p) s s' /\ firstn p (tl s) = c ++ spec /\
           skipn (length (rc_ipath R) - h_wild h') w = skipn (length (rc_ipath R) - h_wild h') w') /\
        exists w s, represents R h w s /\ hd_error s = Some pre
    end.
Proof.
  intros R h pre post p OK Hp Hw. destruct (update_spec R OK h pre post p Hp Hw) as (r & E & H). exists r. split; auto. destruct r as [[h' spec]|].
  - destruct H as (H1 & H2 & H3 & H4 & _ & w0 & s0 & H6). split; [lia|]. split; [auto|]. split; [|split].
    + intros w s s' H (t & -> & ->). auto.
    + intros w' s' H. destruct (H4 w' s' H) as (w & s & c & K1 & K2 & K3 & K4). exists w, (pre :: s), c. split; [auto|]. split; [exists s; auto|]. auto.
    + exists w0, (pre :: s0). auto.
  - intros w [|x s] K E'; [discriminate|]. injection E' as ->. apply (H w s K).
Qed.
Print Assumptions C50_update_header.
(** Any sequence of updates from the initial header. *)
Fixpoint updates (R : recon) (h : header) (ops : list (nat * list nat * nat)) : option (option header) :=
  match ops with
  | [] => Some (Some h)
  | (pre, post, p) :: ops' => r <- update_header R h pre post p ;; match r with Some (h', _) => updates R h' ops' | None => Some None end
  end.
Fixpoint runs (ops : list (nat * list nat * nat)) (s s' : list nat) : Prop :=
  match ops with [] => s = s' | op :: ops' => exists t, rewrites op s t /\ runs ops' t s' end.
Lemma updates_spec : forall R, recon_ok R -> forall ops h r, h_wild h <= length (rc_ipath R) -> updates R h ops = Some r ->
  match r with
  | Some h' => h_wild h' <= length (rc_ipath R) /\ (forall w s s', represents R h w s -> runs ops s s' -> represents R h' w s') /\
      (forall w' s', represents R h' w' s' -> exists w s, represents R h w s /\ runs ops s s')
  | None => forall w s s', represents R h w s -> ~ runs ops s s'
  end.
Proof.
  intros R OK. induction ops as [|[[pre post] p] ops IH]; intros h r Hw E.
  - injection E as <-. split; auto. split; [intros w s s' H <-; auto|]. intros w s H. exists w, s. cbn. auto.
  - cbn [updates] in E. assert (Hp: 1 + p <= h_size h). { unfold update_header in E. destruct (Nat.leb_spec (1 + p) (h_size h)); auto. discriminate. }
    destruct (C50_update_header R h pre post p OK Hp Hw) as (x & Ex & H). rewrite Ex in E. cbn [obind] in E. destruct x as [[h' spec]|].
    + destruct H as (H1 & _ & H2 & H3 & _). specialize (IH h' r H1 E). destruct r as [h2|].
      * destruct IH as (I1 & I2 & I3). split; auto. split.
        -- intros w s s' K (t & K1 & K2). eapply I2; eauto.
        -- intros w' s' K. destruct (I3 w' s' K) as (w1 & s1 & K1 & K2). destruct (H3 w1 s1 K1) as (w & s & c & K3 & K4 & _). exists w, s. split; auto. exists s1. auto.
      * intros w s s' K (t & K1 & K2). apply (IH w t s'); auto. eapply H2; eauto.
    + injection E as <-. intros w s s' K (t & (t' & -> & _) & _). apply (H w _ K). auto.
Qed.
(** The header after a sequence of updates stands for exactly the stacks that the sequence produces from words along the
    initial path; nullopt means that it produces none. *)
Theorem C50_update_sequence : forall R ops r, recon_ok R -> updates R (initial_header R) ops = Some r ->
  match r with
  | Some h => forall s', (exists w', represents R h w' s') <-> exists w, follows (rc_infa R) (rc_ipath R) w /\ runs ops w s'
  | None => forall w s', follows (rc_infa R) (rc_ipath R) w -> ~ runs ops w s'
  end.
Proof.
  intros R ops r OK E. pose proof (updates_spec R OK ops (initial_header R) r (le_n _) E) as H. destruct r as [h|].
  - destruct H as (_ & H1 & H2). intros s'. split.
    + intros (w' & K). destruct (H2 w' s' K) as (w & s & K1 & K2). apply initial_rep in K1. destruct K1 as [K1 ->]. eauto.
    + intros (w & K1 & K2). exists w. apply (H1 w w); auto. apply initial_rep. auto.
  - intros w s' K1 K2. apply (H w w s'); auto. apply initial_rep. auto.
Qed.
Print Assumptions C50_update_sequence.
(** finalize_header: either a full stack that the header represents, that follows the final path and has the abstract labels of
    the final abstract stack; or no represented stack of that abstract stack follows the final path, and the refinement splits
    one of the abstract labels by the final NFA. [typed]: the labels have the abstract labels of the final abstract stack. *)
Theorem C50_finalize_header : forall R h, recon_ok R -> h_size h = length (rc_fpath R) -> h_wild h <= length (rc_ipath R) -> typed R (rev (h_conc h)) ->
  (forall j, 0 < j <= h_wild h -> nth_error (rc_iabs R) (length (rc_ipath R) - j) = nth_error (rc_fabs R) (length (rc_fpath R) - j)) ->
  exists r, finalize_header R h = Some r /\ match r with
    | inl h' => h_wild h' = 0 /\ exists w, represents R h w (rev (h_conc h')) /\ follows (rc_fnfa R) (rc_fpath R) (rev (h_conc h')) /\ typed R (rev (h_conc h'))
    | inr rf => splits R rf /\ (forall w s, represents R h w s -> typed R s -> ~ follows (rc_fnfa R) (rc_fpath R) s) /\
        ((forall i x, nth_error (rev (h_conc h)) i = Some x -> enters (rc_fnfa R) (rc_fpath R) i x) -> NoDup (concat (rf_parts rf)))
    end.
Proof. intros R h OK. apply finalize_spec. auto. Qed.
Print Assumptions C50_finalize_header.
(** pre_labels: every label it returns is accepted by update_header; it may miss some (C45), but not all. *)
Theorem C50_pre_labels_partial : forall R h post, recon_ok R -> h_wild h <= length (rc_ipath R) -> 0 < h_size h ->
  exists l, pre_labels R h = Some l /\ l <> [] /\ (forall x, In x l -> exists r, update_header R h x post 0 = Some (Some r)) /\
    (h_conc h <> [] -> forall x r, update_header R h x post 0 = Some (Some r) -> In x l).
Proof.
  intros R h post OK Hw Hs.
  assert (U: forall x, (exists w s, represents R h w s /\ hd_error s = Some x) -> exists r, update_header R h x post 0 = Some (Some r)).
  { intros x (w & s & H1 & H2). destruct (C50_update_header R h x post 0 OK) as (r & E & H); [lia|auto|]. destruct r as [r|]; [eauto|]. exfalso. apply (H w s H1 H2). }
  destruct (word_ex R OK) as [w F]. unfold pre_labels. rewrite h_empty_size. destruct (Nat.eqb_spec (h_size h) 0); [lia|]. unfold h_top_is_concrete.
  destruct (is_nil (h_conc h)) eqn:En; cbn [negb].
  - apply is_nil_iff in En. pose proof OK as (O1 & O2 & O3 & O4 & O5 & HR & Li & _ & Hi & _). unfold h_size in Hs. rewrite En in Hs. cbn in Hs.
    rewrite (wild_at R (rc_ipath R) (h_wild h)) by lia. cbn [obind]. destruct (nth_error_ex _ (rc_iabs R) (length (rc_ipath R) - h_wild h)) as [a Ha]; [lia|]. rewrite Ha. cbn [obind].
    destruct (rm_concrete_spec (rc_map R) a HR) as (ls & El & Nl & Hls). rewrite El. cbn [obind].
    destruct (intersect_spec (rc_addr R) (rc_infa R) (rc_ipath R) (sort_nat ls) (length (rc_ipath R) - h_wild h)) as (l & E & H1 & H2); auto; [lia|apply sort_nat_ssorted; auto|]. exists l. split; [auto|]. split; [|split; [|congruence]].
    + apply H2. destruct (Hi _ _ Ha) as (x & Hx & Hen). exists x. split; auto. apply sort_nat_In, Hls. auto.
    + intros x Hx. apply H1 in Hx. apply U. exists (put w (length (rc_ipath R) - h_wild h) [x]), (x :: skipn (length (rc_ipath R) - h_wild h + 1) w). split; auto. destruct F as [Lw F]. split.
      * apply put_follows; [split; auto|cbn [length]; lia|]. intros [|[|j]] y Hy; try discriminate. injection Hy as <-. rewrite Nat.add_0_r. tauto.
      * rewrite En, put_skipn by (cbn [length]; lia). auto.
  - unfold h_back. destruct (rev (h_conc h)) as [|y c] eqn:Er; [apply (f_equal (@rev nat)) in Er; rewrite rev_involutive in Er; cbn in Er; rewrite Er in En; discriminate|].
    cbn [obind]. exists [y]. split; [auto|]. split; [discriminate|]. split.
    + intros x [<-|[]]. apply U. eexists w, _. split; [split; [auto|reflexivity]|]. rewrite Er. auto.
    + intros _ x r E. unfold update_header, h_top_is_concrete in E. rewrite En in E. cbn [negb] in E. unfold h_back in E. rewrite Er in E. cbn [obind] in E. destruct (Nat.eqb_spec y x); [cbn; auto|].
      destruct (Nat.leb _ _); discriminate.
Qed.
Print Assumptions C50_pre_labels_partial.

(** A concrete case: initial headers 4.3, 5.3 or 6.3; final headers 2.3 or 1.3; labels 1,2,4,...,8 have abstract label 0, label 3
    has abstract label 1. Path 8, 9 in both NFAs. *)
Definition c50_map : rmap := mk_rmap [(1, 0); (2, 0); (4, 0); (5, 0); (3, 1); (6, 0); (7, 0); (8, 0)] [[0; 1; 2; 3; 5; 6; 7]; [4]].
Definition c50_nfa (a b c : nat) : nfa := mk_nfa (n_states (c45_nfa a b c)) [0; 2; 5] (n_accs (c45_nfa a b c)).
Definition c50_R : recon := mk_recon (fun i => i) c50_map (c50_nfa 4 5 6) (c50_nfa 2 1 1) [8; 9] [8; 9] [0; 1] [0; 1].
Lemma c50_compiled : forall a b c, nfa_compile (fun i => i) (c45_nfa a b c) = Some (c50_nfa a b c).
Proof. reflexivity. Qed.
Lemma c50_wf : forall a b c, nfa_wf (c50_nfa a b c).
Proof.
  intros a b c. destruct (C45_nfa_wf a b c) as [H1 H2 H3]. constructor.
  - exact H1.
  - intros q [<-|[<-|[<-|[]]]]; cbn; lia.
  - exact H3.
Qed.
Lemma c50_reads : forall a b c x, In x [a; b; c] -> reads_to (c50_nfa a b c) [0; 2; 5] x 8.
Proof.
  assert (G: forall a b c x s d, In s [0; 2; 5] -> (exists st, nth_error (n_states (c50_nfa a b c)) s = Some st /\ ns_edges st = [mk_nedge false false [x] d]) ->
             (exists st, nth_error (n_states (c50_nfa a b c)) d = Some st /\ exists e, ns_edges st = [e] /\ e = mk_nedge true false [] 8) -> reads_to (c50_nfa a b c) [0; 2; 5] x 8).
  { intros a b c x s d H1 (st & H2 & H3) (st' & H4 & e & H5 & H6). exists s, d. split; auto. split.
    - exists st, (mk_nedge false false [x] d). rewrite H3. cbn. auto.
    - eapply ap_eps; [|constructor]. exists st', e. rewrite H5, H6. cbn. auto. }
  intros a b c x [<-|[<-|[<-|[]]]]; [apply (G _ _ _ _ 0 1)|apply (G _ _ _ _ 2 3)|apply (G _ _ _ _ 5 6)]; cbn; auto;
    first [eexists; split; [reflexivity|]; reflexivity | eexists; split; [reflexivity|]; eexists; split; reflexivity].
Qed.
Lemma c50_reads3 : forall a b c, reads_to (c50_nfa a b c) [8] 3 9.
Proof. intros. exists 8, 9. split; [cbn; auto|]. split; [|constructor]. eexists _, (mk_nedge false false [3] 9). split; [reflexivity|]. cbn. auto. Qed.
Lemma c50_RI : RI c50_map.
Proof.
  split.
  - apply (Permutation_NoDup (sort_nat_perm _)), ssorted_NoDup, ssortedb_ok. reflexivity.
  - intros [|[|[|a]]] ks H; try discriminate; injection H as <-; (split; [apply ssorted_NoDup, ssortedb_ok; reflexivity|]); intros k;
      do 8 (destruct k as [|k]; [cbn; intuition (discriminate || lia)|]); destruct k; cbn; intuition (discriminate || lia).
  - intros k a H. do 8 (destruct k as [|k]; [injection H as <-; cbn; lia|]). destruct k; discriminate.
Qed.
Lemma c50_path_ok : forall a b c, path_ok (c50_nfa a b c) [8; 9].
Proof.
  intros a b c q [<-|[<-|[]]]; (split; [cbn; lia|]).
  - right. exists 3, 9. eexists _, (mk_nedge false false [3] 9). split; [reflexivity|]. cbn. auto.
  - left. eexists. split; reflexivity.
Qed.
Lemma c50_ok : recon_ok c50_R.
Proof.
  split; [intros i j H; exact H|]. split; [apply c50_wf|]. split; [apply c50_wf|]. split; [apply c50_path_ok|]. split; [apply c50_path_ok|]. split; [apply c50_RI|]. split; [reflexivity|]. split; [reflexivity|].
  split; intros [|[|[|i]]] a H; try discriminate; injection H as <-.
  - exists 4. split; [reflexivity|]. exists 8. split; [reflexivity|]. apply c50_reads. cbn; auto.
  - exists 3. split; [reflexivity|]. exists 9. split; [reflexivity|]. exists 8. split; [reflexivity|]. apply c50_reads3.
  - exists 2. split; [reflexivity|]. exists 8. split; [reflexivity|]. apply (c50_reads 2 1 1). cbn; auto.
  - exists 3. split; [reflexivity|]. exists 9. split; [reflexivity|]. exists 8. split; [reflexivity|]. apply c50_reads3.
Qed.
Example C50_example : recon_ok c50_R /\
  (* swap 5 for 1: accepted *)
  updates c50_R (initial_header c50_R) [(5, [1], 0)] = Some (Some (mk_header 1 [1])) /\ finalize_header c50_R (mk_header 1 [1]) = Some (inl (mk_header 0 [3; 1])) /\
  (* 1 is not a possible top label at first *)
  updates c50_R (initial_header c50_R) [(1, [1], 0)] = Some None /\
  (* pop both labels: 3 is found for the second *)
  update_header c50_R (initial_header c50_R) 4 [7; 8] 1 = Some (Some (mk_header 0 [7; 8], [3])) /\
  (* the untouched header is spurious *)
  finalize_header c50_R (mk_header 2 []) = Some (inr (mk_ref [[4; 5; 6]; [1; 2]] 0)) /\ pre_labels c50_R (mk_header 2 []) = Some [4; 5; 6].
Proof. split; [apply c50_ok|]. repeat split; vm_compute; reflexivity. Qed.
(** The refinement for a concrete label takes the result of intersect_edge_labels as it is, with duplicates. Combined over several
    configurations it breaks the mapping: the concrete values of an abstract label are then not without duplicates. *)
Theorem C50_refinement_refuted : exists R hs rs hr m a l, recon_ok R /\
  (forall h, In h hs -> h_size h = length (rc_fpath R) /\ typed R (rev (h_conc h))) /\
  omap (finalize_header R) hs = Some (map inr rs) /\ header_run rs = Some hr /\ rm_run (rc_map R) hr = Some m /\ rm_concrete m a = Some l /\ ~ NoDup l.
Proof.
  exists c50_R, (map (fun x => mk_header 1 [x]) [4; 5; 6; 7; 8]), (map (fun x => mk_ref [[x]; [1; 1; 2]] 0) [4; 5; 6; 7; 8]), [mk_ref [[4]; [1; 1; 2]; [5; 6; 7; 8]] 0].
  eexists _, 3, [1; 1; 2]. split; [apply c50_ok|]. split.
  - intros h Hh. apply in_map_iff in Hh. destruct Hh as (x & <- & Hx). split; [reflexivity|]. intros [|[|i]] y Hy; try discriminate. injection Hy as <-. exists 0. split; auto.
    repeat (destruct Hx as [<-|Hx]; [reflexivity|]). destruct Hx.
  - split; [vm_compute; reflexivity|]. split; [vm_compute; reflexivity|]. split; [vm_compute; reflexivity|]. split; [vm_compute; reflexivity|].
    intros H. inversion H as [|? ? H1 _]. apply H1. cbn. auto.
Qed.
Print Assumptions C50_refinement_refuted.

(** *** C55: the search is exhaustive *)
(** For any behaviour of the virtual functions (init: initial_concrete_rules; next d: search_concrete_rules for the rule d; fin:
    finalize_header of the header of a configuration): the search ends; a concrete trace is a chain of configurations, one per rule,
    whose last one has a final header; it refines at the deepest level d that any chain reaches, with exactly the configurations
    of that level in order; the header refinement combines those of all complete chains. *)
Theorem C55_reconstruct_trace : forall (conf : Type) n (next : nat -> conf -> list conf) fin init fin0, 0 < n ->
  (forall c, fin c <> None) -> (forall c h, fin c = Some (inl h) -> h_wild h = 0) -> (forall c r, fin c = Some (inr r) -> proper r /\ length (rf_parts r) = 2) ->
  exists k o, (forall fuel, reconstruct n next fin (k + fuel) init fin0 = Some (Some o)) /\
    match o with
    | OInitial => init = []
    | ORefine d deep => 0 < d < n /\ deep = level conf next init d /\ deep <> [] /\ (forall c, In c deep -> next d c = [])
    | OTrace t stack => length t = n /\ chain conf next init t /\ exists c h, nth_error t (n - 1) = Some c /\ fin c = Some (inl h) /\ h_conc h = stack /\ h_wild h = 0
    | OHeader hr => level conf next init n <> [] /\ header_run (refs conf fin (level conf next init n)) = Some hr /\ (forall c, In c (level conf next init n) -> exists r, fin c = Some (inr r))
    end.
Proof. intros conf n next fin init fin0 Hn H1 H2 H3. apply search_spec; auto. Qed.
Print Assumptions C55_reconstruct_trace.
(** So a trace is found iff there is one. *)
Lemma level_chain : forall conf next init n c, In c (level conf next init (S n)) <-> exists t, length t = S n /\ chain conf next init t /\ nth_error t n = Some c.
Proof.
  intros conf next init. induction n as [|n IH]; intros c.
  - cbn. split.
    + intros H. exists [c]. split; auto. split; auto. split; [intros x E; injection E as <-; auto|]. intros [|i] x x' E E'; [discriminate|destruct i; discriminate].
    + intros (t & L & [C _] & E). apply C. auto.
  - change (level conf next init (S (S n))) with (flat_map (next (S n)) (level conf next init (S n))). rewrite in_flat_map. split.
    + intros (x & Hx & Hc). apply IH in Hx. destruct Hx as (t & L & [C1 C2] & E). exists (t ++ [c]). split; [rewrite app_length; cbn; lia|]. split.
      * split; [intros y Hy; rewrite nth_error_app1 in Hy by lia; auto|]. intros i y y' Hy Hy'. pose proof (nth_error_lt _ _ _ _ Hy') as Li. rewrite app_length in Li. cbn in Li.
        rewrite nth_error_app1 in Hy by lia. destruct (Nat.eq_dec i n) as [->|Ni].
        -- rewrite nth_error_app2 in Hy' by lia. replace (S n - length t) with 0 in Hy' by lia. injection Hy' as <-. replace y with x by congruence. auto.
        -- rewrite nth_error_app1 in Hy' by lia. eauto.
      * rewrite nth_error_app2 by lia. replace (S n - length t) with 0 by lia. auto.
    + intros (t & L & [C1 C2] & E). destruct (nth_error_ex _ t n) as [x Hx]; [lia|]. exists x. split; [|eauto]. apply IH. exists (firstn (S n) t).
      assert (G: forall i, i <= n -> nth_error (firstn (S n) t) i = nth_error t i). { intros i Hi. rewrite <- (firstn_skipn (S n) t) at 2. rewrite nth_error_app1; auto. rewrite firstn_length_le; lia. }
      split; [rewrite firstn_length_le; lia|]. split; [|rewrite G; auto]. split.
      * intros y Hy. rewrite G in Hy by lia. auto.
      * intros i y y' Hy Hy'. pose proof (nth_error_lt _ _ _ _ Hy') as Li. rewrite firstn_length_le in Li by lia. rewrite G in Hy by lia. rewrite G in Hy' by lia. eauto.
Qed.
Theorem C55_complete : forall (conf : Type) n (next : nat -> conf -> list conf) fin init fin0, 0 < n ->
  (forall c, fin c <> None) -> (forall c h, fin c = Some (inl h) -> h_wild h = 0) -> (forall c r, fin c = Some (inr r) -> proper r /\ length (rf_parts r) = 2) ->
  exists k o, (forall fuel, reconstruct n next fin (k + fuel) init fin0 = Some (Some o)) /\
    ((exists t stack, o = OTrace t stack) <-> exists t c h, length t = n /\ chain conf next init t /\ nth_error t (n - 1) = Some c /\ fin c = Some (inl h)).
Proof.
  intros conf n next fin init fin0 Hn H1 H2 H3. destruct (C55_reconstruct_trace conf n next fin init fin0 Hn H1 H2 H3) as (k & o & E & H). exists k, o. split; auto. split.
  - intros (t & stack & ->). destruct H as (L & C & c & h & K1 & K2 & _). eauto 8.
  - intros (t & c & h & L & C & K & F). destruct n as [|n']; [lia|]. replace (S n' - 1) with n' in K by lia.
    assert (I: In c (level conf next init (S n'))) by (apply level_chain; eauto). destruct o as [|d deep|t' stack|hr].
    + subst init. rewrite (level_nil conf next [] 1 (S n')) in I; [destruct I|auto|lia|lia].
    + destruct H as (Hd & -> & _ & Hx). assert (Z: level conf next init (S d) = []).
      { destruct d as [|d]; [lia|]. change (level conf next init (S (S d))) with (flat_map (next (S d)) (level conf next init (S d))). destruct (flat_map _ _) as [|y l] eqn:Ef; auto.
        assert (K': In y (flat_map (next (S d)) (level conf next init (S d)))) by (rewrite Ef; cbn; auto). apply in_flat_map in K'. destruct K' as (x & K1 & K2). rewrite (Hx x K1) in K2. destruct K2. }
      rewrite (level_nil conf next init (S d) (S n') Z) in I; [destruct I|lia|lia].
    + eauto.
    + destruct H as (_ & _ & H). destruct (H c I) as [r Er]. congruence.
Qed.
Print Assumptions C55_complete.
(** Three rules over numbers: 1 leads to 10, 11, these to twice and thrice themselves; only 33 can be finalised. *)
Definition c55_next (d c : nat) : list nat := match d with 1 => [c * 10; c * 10 + 1] | _ => [2 * c; 3 * c] end.
Definition c55_fin (good c : nat) : option (header + refinement) := if Nat.eqb c good then Some (inl (mk_header 0 [c])) else Some (inr (mk_ref [[c]; [c + 1]] 0)).
Example C55_example : (forall g c h, c55_fin g c = Some (inl h) -> h_wild h = 0) /\ (forall g c r, c55_fin g c = Some (inr r) -> proper r /\ length (rf_parts r) = 2) /\
  reconstruct 3 c55_next (c55_fin 33) 20 [1; 5] None = Some (Some (OTrace [1; 11; 33] [33])) /\
  reconstruct 3 c55_next (c55_fin 0) 40 [1] None = Some (Some (OHeader [mk_ref [[20; 23; 31; 34]; [21; 22; 30; 33]] 0])) /\
  reconstruct 3 (fun d c => if Nat.eqb d 1 then c55_next d c else []) (c55_fin 0) 40 [1; 5] None = Some (Some (ORefine 2 [10; 11; 50; 51])).
Proof.
  split; [|split].
  - intros g c h. unfold c55_fin. destruct (Nat.eqb c g); intros H; [injection H as <-; auto|discriminate].
  - intros g c r. unfold c55_fin. destruct (Nat.eqb c g); intros H; [discriminate|]. injection H as <-. split; auto. split; [|split; auto].
    + intros p [<-|[<-|[]]]; (split; [repeat constructor|discriminate]).
    + cbn. constructor; [intros [H|[]]; lia|]. constructor; [intros []|constructor].
  - repeat split; vm_compute; reflexivity.
Qed.

(** *** C56: progress of the refinements *)
(** A refinement with at least two parts makes the abstraction strictly finer; it cannot have more classes than values, so no
    sequence of such refinements is longer than the number of values. *)
Theorem C56_refine_grows : forall m values r, RI m -> is_partition m values -> fits m r -> 2 <= length (rf_parts r) ->
  exists m', rm_refine m r = Some m' /\ rm_size m < rm_size m'.
Proof.
  intros m values r Rm P F L. destruct (C41_refine m values r Rm P F) as (m' & E & R' & P' & _ & _ & H2 & _ & _ & H5 & _). exists m'. split; auto.
  destruct F as (F1 & F2 & F3). destruct (rf_parts r) as [|p [|q ps]] eqn:Ep; cbn in L; try lia.
  destruct p as [|x p]; [exfalso; apply (F2 []); cbn; auto|]. destruct q as [|y q]; [exfalso; apply (F2 []); cbn; auto|].
  assert (Hx: rm_exists m x = Some (rf_id r)) by (apply F3; cbn; auto). assert (Hy: rm_exists m y = Some (rf_id r)) by (apply F3; cbn; right; apply in_or_app; right; cbn; auto).
  assert (N: rm_exists m' x <> rm_exists m' y). { apply H2. exists 0, 1. split; [lia|]. split; eexists; (split; [reflexivity|cbn; auto]). }
  destruct P as (P1 & _). destruct P' as (P1' & P2' & _). assert (Ix: In x values) by (apply P1; eauto). assert (Iy: In y values) by (apply P1; eauto).
  apply P1' in Ix, Iy. destruct Ix as [a Ha], Iy as [b Hb]. pose proof (P2' _ _ Ha). pose proof (P2' _ _ Hb).
  destruct (H5 _ _ Ha) as [Ka|[_ Ka]]; [|lia]. destruct (H5 _ _ Hb) as [Kb|[_ Kb]]; [|lia]. exfalso. apply N. rewrite Ha, Hb. congruence.
Qed.
Print Assumptions C56_refine_grows.
Lemma size_bound : forall m values, is_partition m values -> (forall a, a < rm_size m -> exists x, rm_exists m x = Some a) -> rm_size m <= length values.
Proof.
  intros m values (P1 & _) D. assert (G: forall k, k <= rm_size m -> exists l, NoDup l /\ length l = k /\ incl l values /\ forall x, In x l -> exists a, a < k /\ rm_exists m x = Some a).
  { induction k as [|k IH]; intros H; [exists []; split; [constructor|]; split; auto; split; [intros x []|intros x []]|]. destruct IH as (l & N & L & I & A); [lia|]. destruct (D k) as [x Hx]; [lia|].
    exists (x :: l). split; [constructor; auto; intros K; apply A in K; destruct K as (a & Ha & K); rewrite Hx in K; injection K as <-; lia|]. split; [cbn; lia|]. split.
    - intros y [<-|Hy]; auto. apply P1. eauto.
    - intros y [<-|Hy]; [exists k; split; auto|]. destruct (A y Hy) as (a & Ha & Hb). exists a. split; auto. }
  destruct (G (rm_size m) (le_n _)) as (l & N & L & I & _). rewrite <- L. apply NoDup_incl_length; auto.
Qed.
Theorem C56_refinements_end : forall m values rs, RI m -> is_partition m values -> (forall a, a < rm_size m -> exists x, rm_exists m x = Some a) ->
  fits_run m rs -> (forall r, In r rs -> 2 <= length (rf_parts r)) -> rm_size m + length rs <= length values.
Proof.
  intros m values rs. revert m. induction rs as [|r rs IH]; intros m Rm P D F L.
  - cbn. rewrite Nat.add_0_r. apply (size_bound m); auto.
  - destruct F as [F1 F2]. destruct (C56_refine_grows m values r Rm P F1 (L r (or_introl eq_refl))) as (m' & E & G).
    destruct (C41_refine m values r Rm P F1) as (m1 & E1 & R1 & P1 & _ & _ & _ & _ & _ & _ & D1). rewrite E in E1. injection E1 as <-.
    specialize (IH m' R1 P1 (D1 D) (F2 m' E)). cbn [length]. assert (rm_size m' + length rs <= length values) by (apply IH; intros; apply L; cbn; auto). lia.
Qed.
Print Assumptions C56_refinements_end.
Example C56_example : exists m m0, am_run (fun x => x mod 3) c41_calls = Some m /\ rm_of m = Some m0 /\ rm_size m0 = 3 /\ fits_run m0 [c41_ref; mk_ref [[9]; [0]] 1] /\
  option_map rm_size (rm_run m0 [c41_ref; mk_ref [[9]; [0]] 1]) = Some 5.
Proof.
  destruct C41_example as (m & m0 & m' & E1 & E2 & [F1 F2] & E3 & _). vm_compute in E1. injection E1 as <-. vm_compute in E2. injection E2 as <-. vm_compute in E3. injection E3 as <-.
  eexists _, _. split; [vm_compute; reflexivity|]. split; [vm_compute; reflexivity|]. split; [reflexivity|]. split; [|vm_compute; reflexivity].
  split; [exact F1|]. intros m1 E. vm_compute in E. injection E as <-. split; [|intros; exact Logic.I]. split; [|split].
  - cbn. repeat constructor; cbn; intuition discriminate.
  - intros p [<-|[<-|[]]]; discriminate.
  - intros x [<-|[<-|[]]]; reflexivity.
Qed.
