(** C30: the least-weight queries: post* with trace type Shortest. *)
From Coq Require Import List Arith Lia Bool ZArith Permutation.
From Verif Require Import Base BaseFacts Spec SpecFacts PdaModel PdaProof AutModel AutProof PreStarModel PreStarProof PreStarLang PostStarModel PostStarProof
  PostStarLang PathModel QueryModel QueryProof SolverModel SolverProof ProductModel ProductProof TraceModel TraceProof UtilModel UtilProof ShortSpec ShortModel ShortProdProof PostShortProof ShortProof StoreProof ExHelp.
Import ListNotations.

(** The top of a priority queue of weights is any element with the least weight. *)
Definition least_top {A} (ptop : nat -> list (Z * A) -> nat) : Prop :=
  forall k l, l <> [] -> exists x, nth_error l (ptop k l) = Some x /\ forall y, In y l -> (fst x <= fst y)%Z.

(** What a query reports: nothing, or a path of the product and a weight. *)
Definition reports_least (R : wpds) (L1 L2 : config -> Prop) (o : option (apth nat * Z)) : Prop :=
  match o with
  | None => forall v, ~ run_weight R L1 L2 v
  | Some (p, d) => least_weight R L1 L2 d /\ L2 (ap_front p, word (ap_stack p)) /\ exists c, L1 c /\ wreach R c d (ap_front p, word (ap_stack p))
  end.

Lemma short_answers : forall P top ptop J b J', (exists fuel0, forall fuel, fuel0 <= fuel -> post_star_short P top ptop fuel J = done (b, J')) ->
  forall fuel, post_star_short P top ptop fuel J = Some None \/ post_star_short P top ptop fuel J = done (b, J').
Proof.
  intros P top ptop J b J' [fuel0 H] fuel. assert (H0 := H (fuel + fuel0) ltac:(lia)). unfold post_star_short in *.
  destruct (sp_initialize _ _ _ _ _) as [[b0 sp]|]; cbn [obind fst snd] in *; [|discriminate]. destruct b0; auto.
  destruct (h_init _ _ _ _ _) as [st|]; cbn [obind] in *; [|discriminate].
  assert (M := h_run_mono P sprod (Some (cb_short P top (si_fin J))) ptop fuel st fuel0).
  destruct (h_run P sprod (Some (cb_short P top (si_fin J))) ptop fuel st) as [[[st' b']|]|]; auto; rewrite M in H0; auto; discriminate.
Qed.
Lemma short_only_answers : forall P ptop A A', (exists fuel0, forall fuel, fuel0 <= fuel -> post_star_short_only P ptop fuel A = done A') ->
  forall fuel, post_star_short_only P ptop fuel A = Some None \/ post_star_short_only P ptop fuel A = done A'.
Proof.
  intros P ptop A A' [fuel0 H] fuel. assert (H0 := H (fuel + fuel0) ltac:(lia)). unfold post_star_short_only in *.
  destruct (h_init _ _ _ _ _) as [st|]; cbn [obind] in *; [|discriminate].
  assert (M := h_run_mono P unit None ptop fuel st fuel0).
  destruct (h_run P unit None ptop fuel st) as [[[st' b']|]|]; auto; rewrite M in H0; auto; discriminate.
Qed.

Lemma built_nonneg : forall nlab us, Forall (wf_urule nlab) us -> (forall u, In u us -> (0 <= r_w (u_rule u))%Z) ->
  forall p id r ls, get_rule (build nlab us) p id = Some (r, ls) -> (0 <= r_w r)%Z.
Proof.
  intros nlab us W NN p id r ls H. apply get_rule_at, nth_error_In in H. destruct (proj1 (build_keys _ _ W p r) (ex_intro _ ls H)) as (u & Hu & _ & <-). auto.
Qed.

(** * C30: post_star_accepts<Trace_Type::Shortest>(product), then product.find_path<Trace_Type::Shortest>(). It ends, and the weight
   found is the least weight of a run from the first automaton to the second; a path is found exactly if there is a run.
   The returned boolean is true only then. *)
Theorem C30_post_star_shortest : forall nlab us top ptop ord init fin J, let P := build nlab us in let n := pd_n P in
  Forall (wf_urule nlab) us -> (forall u, In u us -> (0 <= r_w (u_rule u))%Z) ->
  top_max Z zcomp top -> top_push Z top -> least_top ptop -> (forall q l, Permutation (ord q l) l) ->
  pre_ok P (wa_aut init) -> no_in P (wa_aut init) -> aut_wf (wa_aut fin) -> n <= a_size (wa_aut fin) ->
  (forall e, w_of init e = 0%Z) -> (forall e, w_of fin e = 0%Z) ->
  (forall p, p < n -> aut_final (wa_aut init) p -> aut_final (wa_aut fin) p -> False) ->
  new_sinst P ord init fin = Some J ->
  answers (fun fuel => post_star_short P top ptop fuel J) (fun r => exists o, path_shortest (si_prod (snd r)) = Some o /\
    reports_least (user_wrules nlab us) (aut_lang n (wa_aut init)) (aut_lang n (wa_aut fin)) o /\ (fst r = true -> o <> None)).
Proof.
  intros nlab us top ptop ord init fin J P n W NN TM TP PT HO OK NI WF LF ZI ZF NA HJ.
  assert (PO: post_ok P (wa_aut init)) by (apply post_ok_pre_ok; auto).
  destruct (short_spec P (build_wf _ _ W) top TM TP ptop PT init fin PO WF LF ZI ZF (built_nonneg _ _ W NN) NA ord HO J HJ) as (fuel0 & b & J' & E & _ & o & Eo & HA & Hb).
  assert (HB : forall sr w, pda_wrules P sr w <-> user_wrules nlab us sr w) by (apply build_wrules; auto).
  split.
  - intros fuel. destruct (short_answers P top ptop J b J' (ex_intro _ fuel0 E) fuel) as [K|K]; auto. right. exists (b, J'). split; auto. exists o. cbn [fst snd].
    split; auto. split; auto. unfold answer in HA. unfold reports_least. destruct o as [[p d]|].
    + destruct HA as ((HA1 & HA2) & HA3 & c & Hc & Hr). split; [split|split; auto].
      * apply (run_weight_iff _ _ _ _ _ HB); auto.
      * intros v' Hv. apply HA2. apply (run_weight_iff _ _ _ _ _ HB); auto.
      * exists c. split; auto. eapply wreach_iff; [|exact Hr]. apply HB.
    + intros v Hv. apply (HA v). apply (run_weight_iff _ _ _ _ _ HB); auto.
  - exists fuel0. intros fuel L. rewrite E by auto. discriminate.
Qed.
Print Assumptions C30_post_star_shortest.

(** post_star<Trace_Type::Shortest>(automaton): the weighted automaton accepts exactly the reachable configurations; the weight of every
   accepting path is the weight of a run, and some accepting path has a weight not above that of a given run. *)
Theorem C30_shortest_automaton : forall nlab us ptop A0, let P := build nlab us in let n := pd_n P in
  Forall (wf_urule nlab) us -> (forall u, In u us -> (0 <= r_w (u_rule u))%Z) -> least_top ptop ->
  pre_ok P (wa_aut A0) -> no_in P (wa_aut A0) -> (forall e, w_of A0 e = 0%Z) ->
  answers (fun fuel => post_star_short_only P ptop fuel A0) (fun A => forall p w, p < n ->
    (forall v f, wpath (aut_edges (wa_aut A)) (fun x y z => w_of A (mk_edge x y z)) p w v f -> aut_final (wa_aut A) f ->
       run_weight (user_wrules nlab us) (aut_lang n (wa_aut A0)) (eq (p, w)) v) /\
    (forall v, run_weight (user_wrules nlab us) (aut_lang n (wa_aut A0)) (eq (p, w)) v ->
       exists f v', wpath (aut_edges (wa_aut A)) (fun x y z => w_of A (mk_edge x y z)) p w v' f /\ aut_final (wa_aut A) f /\ (v' <= v)%Z)).
Proof.
  intros nlab us ptop A0 P n W NN PT OK NI ZI. assert (PO: post_ok P (wa_aut A0)) by (apply post_ok_pre_ok; auto).
  assert (HB : forall sr w, pda_wrules P sr w <-> user_wrules nlab us sr w) by (apply build_wrules; auto).
  destruct (short_only_spec P (build_wf _ _ W) ptop PT A0 PO ZI (built_nonneg _ _ W NN)) as (fuel0 & A & E & HA).
  split.
  - intros fuel. destruct (short_only_answers P ptop A0 A (ex_intro _ fuel0 E) fuel) as [K|K]; auto. right. exists A. split; auto.
    intros p w Hp. destruct (HA p w Hp) as [H1 H2]. split.
    + intros v f Hw Hf. apply (run_weight_iff _ _ _ _ _ HB). eapply H1; eauto.
    + intros v Hv. apply H2. apply (run_weight_iff _ _ _ _ _ HB); auto.
  - exists fuel0. intros fuel L. rewrite E by auto. discriminate.
Qed.
Print Assumptions C30_shortest_automaton.

(** A priority queue that returns the first of the elements with the least weight. *)
Fixpoint argmin {A} (l : list (Z * A)) : nat * option Z :=
  match l with
  | [] => (0, None)
  | (w, _) :: l' => let (i, m) := argmin l' in match m with Some m => if Z.ltb m w then (S i, Some m) else (0, Some w) | None => (0, Some w) end
  end.
Definition first_least {A} (l : list (Z * A)) : nat := fst (argmin l).

Lemma argmin_spec : forall A (l : list (Z * A)), match snd (argmin l) with
  | None => l = []
  | Some m => exists x, nth_error l (fst (argmin l)) = Some x /\ fst x = m /\ forall y, In y l -> (m <= fst y)%Z
  end.
Proof.
  induction l as [|[w a] l IH]; cbn; auto. destruct (argmin l) as [i [m|]]; cbn [fst snd] in *.
  - destruct IH as (x & H1 & H2 & H3). destruct (Z.ltb_spec m w); cbn [fst snd nth_error].
    + exists x. ands; auto. intros y [<-|Hy]; cbn; auto; lia.
    + exists (w, a). ands; auto. intros y [<-|Hy]; cbn; [lia|]. specialize (H3 y Hy). lia.
  - subst. cbn. exists (w, a). ands; auto. intros y [<-|[]]; cbn; lia.
Qed.
Lemma first_least_nonempty : forall A (l : list (Z * A)), l <> [] -> exists x, nth_error l (first_least l) = Some x /\ forall y, In y l -> (fst x <= fst y)%Z.
Proof.
  intros A l H. assert (K := argmin_spec A l). unfold first_least. destruct (snd (argmin l)); [|congruence].
  destruct K as (x & K1 & <- & K3). exists x; auto.
Qed.
Lemma first_least_ok : forall A, least_top (fun _ : nat => @first_least A).
Proof. intros A k l. apply first_least_nonempty. Qed.
Lemma first_least_max : top_max Z zcomp first_least.
Proof.
  intros q H. destruct (first_least_nonempty _ q H) as (x & H1 & H2). exists x. split; auto. intros y Hy. unfold zcomp. specialize (H2 y Hy).
  destruct (Z.ltb_spec (fst y) (fst x)); auto; lia.
Qed.
Lemma argmin_app : forall A (l : list (Z * A)) w x m, snd (argmin l) = Some m -> argmin (l ++ [(w, x)]) = if Z.ltb w m then (length l, Some w) else argmin l.
Proof.
  induction l as [|[v a] l IH]; intros w x m H; cbn in *; [discriminate|].
  destruct (argmin l) as [i [m'|]] eqn:E; cbn [snd] in *.
  - rewrite (IH w x m' eq_refl). destruct (Z.ltb_spec m' v); cbn [snd] in H; injection H as <-; destruct (Z.ltb_spec w m'); cbn.
    + destruct (Z.ltb_spec w v); auto; lia.
    + destruct (Z.ltb_spec m' v); auto; lia.
    + destruct (Z.ltb_spec w v); auto.
    + destruct (Z.ltb_spec m' v), (Z.ltb_spec w v); auto; lia.
  - injection H as <-. assert (K := argmin_spec A l). rewrite E in K. cbn in K. subst l. cbn. destruct (Z.ltb_spec w v); auto.
Qed.
Lemma first_least_push : top_push Z first_least.
Proof.
  intros q [w x] H. assert (K := argmin_spec _ q). destruct (snd (argmin q)) as [m|] eqn:E; [|congruence].
  unfold first_least. rewrite (argmin_app _ _ _ _ _ E). destruct (Z.ltb w m); auto.
Qed.

(** Runs of the solver, reduced to what can be observed. *)
Definition run_short (nlab : nat) (us : list urule) (init fin : waut) : option (option (bool * option Z)) :=
  let P := build nlab us in
  match new_sinst P (fun _ l => l) init fin with
  | None => None
  | Some J => match post_star_short P first_least (fun _ => first_least) 100 J with
              | Some (Some (b, J')) => match path_shortest (si_prod J') with Some o => done (b, option_map snd o) | None => None end
              | Some None => Some None
              | None => None
              end
  end.

(** Two ways of reaching <2, 3 1>: by 10 + 5 with a PUSH over 1, and from <0, 0> the configuration <2, 3 0>. *)
Definition c30_rules : list urule :=
  [mk_urule 0 (mk_rule 1 PUSH 2 0%Z) false [0]; mk_urule 0 (mk_rule 1 PUSH 2 10%Z) false [1]; mk_urule 1 (mk_rule 2 SWAP 3 5%Z) false [2]].
Definition c30_init : waut := mk_waut (mk_ex [false; false; false; true] [(0, 0, 3); (0, 1, 3)]) [].
Definition c30_fin : waut := mk_waut (mk_ex [false; false; false; false; true] [(2, 3, 3); (3, 1, 4)]) [].
Definition c30_fin0 : waut := mk_waut (mk_ex [false; false; false; false; true] [(2, 3, 3); (3, 0, 4)]) [].

Lemma pre_ok_wf : forall P A, pre_ok P A -> aut_wf A.
Proof. intros P A OK. constructor; [apply OK|]. intros q l q' H. destruct (po_range _ _ OK _ _ _ H) as (K1 & K2 & _). auto. Qed.
Lemma w_of_nil : forall A e, w_of (mk_waut A []) e = 0%Z.
Proof. reflexivity. Qed.

Example C30_case : exists J, new_sinst (build 4 c30_rules) (fun _ l => l) c30_init c30_fin = Some J /\
  answers (fun fuel => post_star_short (build 4 c30_rules) first_least (fun _ => first_least) fuel J) (fun r => exists o, path_shortest (si_prod (snd r)) = Some o /\
    reports_least (user_wrules 4 c30_rules) (aut_lang 3 (wa_aut c30_init)) (aut_lang 3 (wa_aut c30_fin)) o /\ (fst r = true -> o <> None)).
Proof.
  destruct (new_sinst (build 4 c30_rules) (fun _ l => l) c30_init c30_fin) as [J|] eqn:E; [|discriminate E]. exists J. split; auto.
  eapply (C30_post_star_shortest 4 c30_rules first_least (fun _ => first_least) (fun _ l => l) c30_init c30_fin J).
  - apply wf_urulesb_ok. reflexivity.
  - intros u Hu. cbn in Hu. destruct Hu as [<-|[<-|[<-|[]]]]; cbn; lia.
  - apply first_least_max.
  - apply first_least_push.
  - apply first_least_ok.
  - intros; apply Permutation_refl.
  - apply autb_ok. reflexivity.
  - apply no_inb_ok. reflexivity.
  - apply (pre_ok_wf (build 4 c30_rules)). apply autb_ok. reflexivity.
  - vm_compute. lia.
  - apply w_of_nil.
  - apply w_of_nil.
  - intros p Hp. change (p < 3) in Hp. unfold aut_final. cbn. destruct p as [|[|[|p]]]; cbn; try discriminate. lia.
  - auto.
Qed.

(** The search finds the weight 15 and the weight 5. *)
Example C30_run15 : run_short 4 c30_rules c30_init c30_fin = done (false, Some 15%Z).
Proof. vm_compute. reflexivity. Qed.
Example C30_run5 : run_short 4 c30_rules c30_init c30_fin0 = done (true, Some 5%Z).
Proof. vm_compute. reflexivity. Qed.
Example C30_unreachable : run_short 4 c30_rules c30_init (mk_waut (mk_ex [false; false; false; true] [(2, 1, 3)]) []) = done (false, None).
Proof. vm_compute. reflexivity. Qed.

(** The full claim about the returned boolean is false: it can be false although the second automaton is reachable, because the
   callback compares the weight of the path with the lower bound of the queue instead of asking whether any path was found. *)
Theorem C30_verdict_refuted : exists nlab us init fin, let P := build nlab us in let n := pd_n P in
  Forall (wf_urule nlab) us /\ (forall u, In u us -> (0 <= r_w (u_rule u))%Z) /\
  pre_ok P (wa_aut init) /\ no_in P (wa_aut init) /\ pre_ok P (wa_aut fin) /\ no_in P (wa_aut fin) /\
  (forall e, w_of init e = 0%Z) /\ (forall e, w_of fin e = 0%Z) /\
  (forall p, p < n -> ~ aut_final (wa_aut init) p) /\ (forall p, p < n -> ~ aut_final (wa_aut fin) p) /\
  run_weight (user_wrules nlab us) (aut_lang n (wa_aut init)) (aut_lang n (wa_aut fin)) 15%Z /\
  run_short nlab us init fin = done (false, Some 15%Z).
Proof.
  assert (NF : forall acc es p, p < 3 -> firstn 3 acc = [false; false; false] -> ~ aut_final (mk_ex acc es) p).
  { intros acc es p Hp Ha H. unfold aut_final in H. cbn [mk_ex a_acc] in H. assert (K : nth_error (firstn 3 acc) p = Some true).
    { rewrite <- (firstn_skipn 3 acc) in H. rewrite nth_error_app1 in H; auto. rewrite Ha; auto. }
    rewrite Ha in K. destruct p as [|[|[|p]]]; cbn in K; try discriminate. lia. }
  exists 4, c30_rules, c30_init, c30_fin. cbv zeta. change (pd_n (build 4 c30_rules)) with 3.
  split; [apply wf_urulesb_ok; reflexivity|]. split; [intros u Hu; cbn in Hu; destruct Hu as [<-|[<-|[<-|[]]]]; cbn; lia|].
  split; [apply autb_ok; reflexivity|]. split; [apply no_inb_ok; reflexivity|]. split; [apply autb_ok; reflexivity|]. split; [apply no_inb_ok; reflexivity|].
  split; [apply w_of_nil|]. split; [apply w_of_nil|]. split; [intros p Hp; apply NF; auto|]. split; [intros p Hp; apply NF; auto|]. split; [|apply C30_run15].
  exists (0, [1]), (2, [3; 1]). split; [|split].
  - split; [cbn; lia|]. exists 3. split; [|reflexivity]. eapply ap_lab; [|constructor]. cbn. auto.
  - split; [cbn; lia|]. exists 4. split; [|reflexivity]. eapply ap_lab; [cbn; auto|]. eapply ap_lab; [cbn; auto|]. constructor.
  - change 15%Z with (10 + (5 + 0))%Z. eapply wr_step with (r := mk_srule 0 1 1 (SPush 2)) (c2 := (1, [2; 1])).
    + exists (mk_urule 0 (mk_rule 1 PUSH 2 10%Z) false [1]). cbn. ands; auto.
    + apply (step_by_intro (mk_srule 0 1 1 (SPush 2)) []).
    + eapply wr_step with (r := mk_srule 1 2 2 (SSwap 3)) (c2 := (2, [3; 1])); [|apply (step_by_intro (mk_srule 1 2 2 (SSwap 3)) [1])|apply wr_refl].
      exists (mk_urule 1 (mk_rule 2 SWAP 3 5%Z) false [2]). cbn. ands; auto.
Qed.
Print Assumptions C30_verdict_refuted.

(** Without the hypothesis that no PDA state is accepting in both automata (the empty stack in both languages), the first
   step of the query reads a weight that was never written; the answer would be the configuration itself, at weight 0. *)
Theorem C30_empty_stack_refuted : exists nlab us init fin, let P := build nlab us in let n := pd_n P in
  Forall (wf_urule nlab) us /\ (forall u, In u us -> (0 <= r_w (u_rule u))%Z) /\
  pre_ok P (wa_aut init) /\ no_in P (wa_aut init) /\ pre_ok P (wa_aut fin) /\ no_in P (wa_aut fin) /\
  (forall e, w_of init e = 0%Z) /\ (forall e, w_of fin e = 0%Z) /\
  least_weight (user_wrules nlab us) (aut_lang n (wa_aut init)) (aut_lang n (wa_aut fin)) 0%Z /\
  exists J, new_sinst P (fun _ l => l) init fin = Some J /\ forall fuel, post_star_short P first_least (fun _ => first_least) fuel J = None.
Proof.
  exists 4, c30_rules, (mk_waut (mk_ex [true; false; false; true] [(0, 0, 3); (0, 1, 3)]) []), (mk_waut (mk_ex [true; false; false] []) []).
  cbv zeta. change (pd_n (build 4 c30_rules)) with 3.
  split; [apply wf_urulesb_ok; reflexivity|]. split; [intros u Hu; cbn in Hu; destruct Hu as [<-|[<-|[<-|[]]]]; cbn; lia|].
  split; [apply autb_ok; reflexivity|]. split; [apply no_inb_ok; reflexivity|]. split; [apply autb_ok; reflexivity|]. split; [apply no_inb_ok; reflexivity|].
  split; [apply w_of_nil|]. split; [apply w_of_nil|]. split.
  - split.
    + exists (0, []), (0, []). split; [|split; [|apply wr_refl]]; (split; [cbn; lia|]; exists 0; split; [constructor|reflexivity]).
    + intros v' (c1 & c2 & _ & _ & H). clear - H. induction H; [lia|]. destruct H as (u & Hu & _ & _ & _ & _ & ->). cbn in Hu.
      destruct Hu as [<-|[<-|[<-|[]]]]; cbn [u_rule r_w]; lia.
  - eexists. split; [vm_compute; reflexivity|]. intros fuel. reflexivity.
Qed.
Print Assumptions C30_empty_stack_refuted.

(** A rule with a negative weight makes the construction fail (the exception of line 521), whatever the other rules and the automaton. *)
Theorem C30_negative_rejected : forall nlab us u ptop A0, Forall (wf_urule nlab) us -> In u us -> (r_w (u_rule u) < 0)%Z ->
  forall fuel, post_star_short_only (build nlab us) ptop fuel A0 = None.
Proof.
  intros nlab us u ptop A0 W Hu Hw fuel. unfold post_star_short_only, h_init.
  assert (N : negative_rules (build nlab us) = true); [|rewrite N; reflexivity].
  destruct (proj2 (build_keys _ _ W (u_from u) (u_rule u)) (ex_intro _ u (conj Hu (conj eq_refl eq_refl)))) as (ls & H).
  assert (L := In_rules_lt _ _ _ H). destruct (nth_error_ex _ _ _ L) as [s Es]. unfold negative_rules. apply existsb_exists. exists s. split; [eapply nth_error_In; eauto|].
  apply existsb_exists. exists (u_rule u, ls). rewrite (nth_error_rules_at _ _ _ Es). split; auto. apply Z.ltb_lt. auto.
Qed.
Print Assumptions C30_negative_rejected.
Example C30_negative_rejected_case : forall fuel, post_star_short_only (build 2 [mk_urule 0 (mk_rule 1 PUSH 1 (-1)%Z) false [0]; mk_urule 1 (mk_rule 1 POP 0 3%Z) true []]) (fun _ => first_least) fuel
  (mk_waut (mk_ex [false; false; true] [(0, 0, 2)]) []) = None.
Proof. intros fuel. eapply C30_negative_rejected; [apply wf_urulesb_ok; reflexivity|left; reflexivity|cbn; lia]. Qed.
