(** C32: the fixed-point saturations for trace types ShortestFixedPoint and Longest. *)
From Coq Require Import List Arith Lia Bool ZArith Permutation.
From Verif Require Import Base BaseFacts Spec SpecFacts PdaModel PdaProof AutModel AutProof PreStarModel PreStarProof PreStarLang PostStarModel PostStarProof
  PathModel QueryModel QueryProof SolverModel SolverProof ProductModel TraceModel UtilModel ShortSpec ShortModel ShortProdProof PostShortProof ShortProof StoreProof ExHelp PropsSaturation PropsShort
  FixSpec FixModel FixChain FixPre1 FixPre2 FixPre3 FixPre4 FixPre5 FixPre6.
Import ListNotations.

Definition fa_wt (A : faut) : nat -> option nat -> nat -> option Z := fun x y z => fa_weight A (mk_edge x y z).

Lemma unbounded_best : forall mx R L1 L2 v, unbounded mx R L1 L2 -> ~ best_weight mx R L1 L2 v.
Proof. intros mx R L1 L2 v U [_ H]. destruct (U v) as (v' & H1 & H2). specialize (H v' H1). unfold as_good, better in *. destruct mx; lia. Qed.

(** From paths against runs to best paths against best runs. *)
Lemma best_iff : forall mx (E : edgeset) wt q w (F : nat -> Prop) R L1 L2,
  (forall v f, ipath E wt q w (Some v) f -> F f -> run_weight R L1 L2 v) ->
  (forall f, ipath E wt q w None f -> F f -> unbounded mx R L1 L2) ->
  (forall v, run_weight R L1 L2 v -> exists f v', ipath E wt q w v' f /\ F f /\ as_good mx v' v) ->
  (unbounded mx R L1 L2 -> exists f, ipath E wt q w None f /\ F f) ->
  (forall v, best_path mx E wt q w F (Some v) <-> best_weight mx R L1 L2 v) /\ (best_path mx E wt q w F None <-> unbounded mx R L1 L2).
Proof.
  intros mx E wt q w F R L1 L2 SN B C U. split; [intros v; split|split].
  - intros [(f & H1 & H2) H]. split; [eauto|]. intros v' Hv. destruct (C v' Hv) as (f' & x & X1 & X2 & X3). specialize (H x f' X1 X2).
    destruct x as [x|]; [|discriminate]. unfold as_good in *. destruct mx; lia.
  - intros HB. assert (HB' := HB). destruct HB as [Hr Hb]. destruct (C v Hr) as (f & x & X1 & X2 & X3). destruct x as [x|]; [|exfalso; eapply unbounded_best; eauto].
    assert (x = v). { specialize (Hb x (SN _ _ X1 X2)). unfold as_good in *. destruct mx; lia. } subst x. split; [eauto|].
    intros v' f' Y1 Y2. destruct v' as [y|]; [apply Hb; eauto|]. exfalso. eapply unbounded_best; eauto.
  - intros [(f & H1 & H2) _]. eauto.
  - intros HU. destruct (U HU) as (f & H1 & H2). split; [eauto|]. intros [y|] f' _ _; cbn; auto.
Qed.

Lemma unbounded_iff : forall (R R' : wpds) mx L1 L2, (forall r w, R r w <-> R' r w) -> unbounded mx R L1 L2 <-> unbounded mx R' L1 L2.
Proof. intros R R' mx L1 L2 H. split; intros U b; destruct (U b) as (v & Hv & Hb); exists v; split; auto; apply (run_weight_iff _ _ _ _ _ H); auto. Qed.

(** * C32: pre_star_fixed_point<ShortestFixedPoint> ([mx] = false) and <Longest> ([mx] = true). For an automaton with default traces and weights
   and at least two edges the computation ends without a failing assertion. The best weight over the accepting paths of a configuration is the best
   weight of the runs from it into the given automaton; it is bottom if and only if the weights of these runs can be improved for ever.
   Missing: automata with a single edge, for which the computation can fail (C32_single_edge_refuted), PUSH rules of label 0 with a negative
   weight (lookup_safe, see C02), the trace, and post* (C32_post_star_refuted). *)
Theorem C32_pre_fixed_point_partial : forall nlab us mx A0, let P := build nlab us in let n := pd_n P in
  Forall (wf_urule nlab) us -> lookup_safe us -> pre_ok P (fa_aut A0) -> no_in P (fa_aut A0) ->
  (forall e t, In (e, t) (a_edges (fa_aut A0)) -> t = TNull /\ fa_trace2 A0 e = TNull /\ fa_weight A0 e = Some 0%Z) ->
  2 <= length (a_edges (fa_aut A0)) ->
  answers (fun fuel => pre_star_fixed_point P mx fuel A0) (fun A => forall p w, p < n ->
    let L1 := eq (p, w) in let L2 := aut_lang n (fa_aut A0) in let E := aut_edges (fa_aut A) in let F := aut_final (fa_aut A) in
    (forall v f, ipath E (fa_wt A) p w (Some v) f -> F f -> run_weight (user_wrules nlab us) L1 L2 v) /\
    ((exists v f, ipath E (fa_wt A) p w v f /\ F f) <-> exists v, run_weight (user_wrules nlab us) L1 L2 v) /\
    (forall v, best_path mx E (fa_wt A) p w F (Some v) <-> best_weight mx (user_wrules nlab us) L1 L2 v) /\
    (best_path mx E (fa_wt A) p w F None <-> unbounded mx (user_wrules nlab us) L1 L2)).
Proof.
  intros nlab us mx A0 P n W LS OK NI DF TWO.
  assert (HB : forall sr w, pda_wrules P sr w <-> user_wrules nlab us sr w) by (apply build_wrules; auto).
  assert (WP : wf_pda P) by (apply build_wf; auto).
  assert (LK : lookup_ok P) by (apply lookup_safe_ok; auto).
  assert (RG : forall e, In e (map fst (a_edges (fa_aut A0))) -> in_range P (fa_aut A0) e) by (intros e He; eapply pre_ok_range; eauto).
  assert (T2 : 2 <= length (map fst (a_edges (fa_aut A0)))) by (rewrite map_length; auto).
  destruct (pre_fix_run P WP LK mx A0 (po_n _ _ OK) (po_ord _ _ OK) NI (po_nd _ _ OK) RG DF T2) as [H1 H2]. split; auto.
  intros fuel. destruct (H1 fuel) as [K|(A & K & st & FI & ->)]; auto. right. exists (x_aut (fw_d st)). split; auto. intros p w Hp L1 L2 E F.
  assert (S : forall v f, ipath E (fa_wt (x_aut (fw_d st))) p w (Some v) f -> F f -> run_weight (user_wrules nlab us) L1 L2 v).
  { intros v f Hi Hf. apply (run_weight_iff _ _ _ _ _ HB). eapply fl_sound; eauto. apply (po_n _ _ OK). }
  assert (B : forall f, ipath E (fa_wt (x_aut (fw_d st))) p w None f -> F f -> unbounded mx (user_wrules nlab us) L1 L2).
  { intros f Hi Hf. apply (unbounded_iff _ _ _ _ _ HB). eapply fl_bottom; eauto. apply (po_n _ _ OK). }
  assert (C : forall v, run_weight (user_wrules nlab us) L1 L2 v -> exists f v', ipath E (fa_wt (x_aut (fw_d st))) p w v' f /\ F f /\ as_good mx v' v).
  { intros v Hv. eapply fl_complete; eauto; [apply (po_n _ _ OK)|]. apply (run_weight_iff _ _ _ _ _ HB). exact Hv. }
  assert (U : unbounded mx (user_wrules nlab us) L1 L2 -> exists f, ipath E (fa_wt (x_aut (fw_d st))) p w None f /\ F f).
  { intros HU. eapply fl_unbounded; eauto; [apply (po_n _ _ OK)|]. apply (unbounded_iff _ _ _ _ _ HB). exact HU. }
  split; auto. split; [|apply best_iff; auto]. split.
  - intros ([v|] & f & Hi & Hf); eauto. destruct (B f Hi Hf 0%Z) as (v & Hv & _). eauto.
  - intros (v & Hv). destruct (C v Hv) as (f & v' & X1 & X2 & _). eauto.
Qed.
Print Assumptions C32_pre_fixed_point_partial.

(** Runs, reduced to the edges with their weights. *)
Definition fedges (r : option (option faut)) : option (option (list (nat * option nat * nat * option Z))) :=
  match r with
  | Some (Some A) => Some (Some (map (fun et => (e_src (fst et), e_lab (fst et), e_dst (fst et), fa_weight A (fst et))) (a_edges (fa_aut A))))
  | Some None => Some None
  | None => None
  end.
Definition fa_ex (acc : list bool) (es : list (nat * nat * nat)) : faut := mk_faut (mk_ex acc es) [] [].
Definition ru (p : nat) (o : op) (q m : nat) (w : Z) (l : nat) : urule := mk_urule p (mk_rule q o m w) false [l].
Lemma fa_ex_default : forall acc es e t, In (e, t) (a_edges (mk_ex acc es)) -> t = TNull -> t = TNull /\ fa_trace2 (fa_ex acc es) e = TNull /\ fa_weight (fa_ex acc es) e = Some 0%Z.
Proof. intros acc es e t _ H. ands; auto. Qed.

(** From (0, [0]) there is a run of weight 4 and one of weight 2 that pushes; from (1, [0]) the weights can be lowered for ever. *)
Definition c32_rules : list urule := [ru 0 SWAP 2 1 4 0; ru 0 PUSH 1 1 1 0; ru 1 POP 2 0 1 1; ru 1 NOOP 1 0 (-1) 0; ru 1 SWAP 2 0 0 0].
Definition c32_target : faut := fa_ex [false; false; false; true] [(2, 0, 3); (2, 1, 3)].
Example C32_example_hyps : Forall (wf_urule 2) c32_rules /\ lookup_safe c32_rules /\ pre_ok (build 2 c32_rules) (fa_aut c32_target) /\ no_in (build 2 c32_rules) (fa_aut c32_target) /\
  (forall e t, In (e, t) (a_edges (fa_aut c32_target)) -> t = TNull /\ fa_trace2 c32_target e = TNull /\ fa_weight c32_target e = Some 0%Z) /\ 2 <= length (a_edges (fa_aut c32_target)).
Proof.
  split; [apply wf_urulesb_ok; reflexivity|]. split; [apply lookup_safeb_ok; reflexivity|]. split; [apply autb_ok; reflexivity|]. split; [apply no_inb_ok; reflexivity|].
  split; [|cbn; lia]. intros e t H. apply fa_ex_default; auto. cbn in H. destruct H as [H|[H|[]]]; congruence.
Qed.
Example C32_example_shortest : fedges (pre_star_fixed_point (build 2 c32_rules) false 100 c32_target) = Some (Some [
  (1, Some 0, 3, None); (1, Some 1, 2, Some 1%Z); (0, Some 0, 3, Some 2%Z); (2, Some 0, 3, Some 0%Z); (2, Some 1, 3, Some 0%Z)]).
Proof. vm_compute. reflexivity. Qed.
Example C32_example_longest : fedges (pre_star_fixed_point (build 2 c32_rules) true 100 c32_target) = Some (Some [
  (1, Some 0, 3, Some 0%Z); (1, Some 1, 2, Some 1%Z); (0, Some 0, 3, Some 4%Z); (2, Some 0, 3, Some 0%Z); (2, Some 1, 3, Some 0%Z)]).
Proof. vm_compute. reflexivity. Qed.

(** post* with an edge whose weight is improved, and one whose weight can be lowered for ever. *)
Definition c32_post_ok (mx : bool) := fedges (post_star_fixed_point (build 2 [ru 0 SWAP 1 0 5 0; ru 0 SWAP 2 0 1 0; ru 2 SWAP 1 0 1 0; ru 1 PUSH 0 1 2 0; ru 1 NOOP 1 0 (-1) 0]) mx 100
  (fa_ex [false; false; false; false; true] [(0, 0, 3); (3, 1, 4)])).
Example C32_example_post : c32_post_ok false = Some (Some [(5, Some 0, 3, None); (0, Some 1, 5, Some 0%Z); (2, Some 0, 3, Some 1%Z); (1, Some 0, 3, None); (0, Some 0, 3, Some 0%Z); (3, Some 1, 4, Some 0%Z)]) /\
  c32_post_ok true = Some (Some [(5, Some 0, 3, Some 7%Z); (0, Some 1, 5, Some 0%Z); (2, Some 0, 3, Some 1%Z); (1, Some 0, 3, Some 5%Z); (0, Some 0, 3, Some 0%Z); (3, Some 1, 4, Some 0%Z)]).
Proof. vm_compute. auto. Qed.

(** With a single edge the last round of the first phase may be cut off by the limit: the second phase then updates an edge that was never
   added, and line 732 fails (without assertions line 733 reads through a null pointer). *)
Definition c32_bad : list urule := [ru 2 SWAP 2 0 (-1) 0; ru 1 SWAP 2 0 0 0; ru 0 SWAP 1 0 0 0].
Definition c32_bad_target : faut := fa_ex [false; false; false; true] [(2, 0, 3)].
Theorem C32_single_edge_refuted : exists nlab us A0, let P := build nlab us in
  Forall (wf_urule nlab) us /\ lookup_safe us /\ pre_ok P (fa_aut A0) /\ no_in P (fa_aut A0) /\
  (forall e t, In (e, t) (a_edges (fa_aut A0)) -> t = TNull /\ fa_trace2 A0 e = TNull /\ fa_weight A0 e = Some 0%Z) /\
  pre_star_fixed_point P false 100 A0 = None.
Proof.
  exists 1, c32_bad, c32_bad_target. cbv zeta. split; [apply wf_urulesb_ok; reflexivity|]. split; [apply lookup_safeb_ok; reflexivity|]. split; [apply autb_ok; reflexivity|].
  split; [apply no_inb_ok; reflexivity|]. split; [intros e t [H|[]]; apply fa_ex_default; cbn; auto; congruence|]. vm_compute. reflexivity.
Qed.
Print Assumptions C32_single_edge_refuted.

(** post* fails in the same way. *)
Theorem C32_post_star_fails_refuted : exists nlab us A0, let P := build nlab us in
  Forall (wf_urule nlab) us /\ pre_ok P (fa_aut A0) /\ no_in P (fa_aut A0) /\
  (forall e t, In (e, t) (a_edges (fa_aut A0)) -> t = TNull /\ fa_trace2 A0 e = TNull /\ fa_weight A0 e = Some 0%Z) /\
  post_star_fixed_point P false 100 A0 = None.
Proof.
  exists 2, [ru 0 POP 0 0 0 0; ru 0 NOOP 0 0 (-1) 1; ru 0 SWAP 0 0 0 1], (fa_ex [false; true] [(0, 1, 1)]). cbv zeta.
  split; [apply wf_urulesb_ok; reflexivity|]. split; [apply autb_ok; reflexivity|]. split; [apply no_inb_ok; reflexivity|].
  split; [intros e t [H|[]]; apply fa_ex_default; cbn; auto; congruence|]. vm_compute. reflexivity.
Qed.
Print Assumptions C32_post_star_fails_refuted.

(** post_star_fixed_point can report a finite weight although the weights can be lowered for ever: when an edge from a state of _q_prime is set to bottom,
   lines 1043-1046 go on with the finite weight wb instead of the new weight of that edge. *)
Definition c32_post_rules : list urule := [ru 0 SWAP 1 1 3 0; ru 0 PUSH 0 0 1 1; ru 0 SWAP 0 1 (-1) 1; ru 1 POP 1 0 2 0; ru 1 SWAP 0 1 2 0; ru 1 SWAP 1 0 0 1].
Definition c32_post_init : faut := fa_ex [false; false; true] [(1, 1, 2)].
Definition c32_post : faut := Eval vm_compute in match post_star_fixed_point (build 2 c32_post_rules) false 100 c32_post_init with Some (Some A) => A | _ => c32_post_init end.
Lemma c32_post_run : post_star_fixed_point (build 2 c32_post_rules) false 100 c32_post_init = done c32_post.
Proof. vm_compute. reflexivity. Qed.
Lemma c32_post_edges : map fst (a_edges (fa_aut c32_post)) = [mk_edge 3 (Some 1) 3; mk_edge 1 None 3; mk_edge 0 (Some 1) 3; mk_edge 1 (Some 0) 3; mk_edge 1 (Some 1) 3; mk_edge 3 (Some 1) 2;
  mk_edge 0 (Some 0) 3; mk_edge 1 None 2; mk_edge 0 (Some 1) 2; mk_edge 1 (Some 0) 2; mk_edge 1 (Some 1) 2].
Proof. vm_compute. reflexivity. Qed.
Lemma c32_post_final : forall f, aut_final (fa_aut c32_post) f -> f = 2.
Proof. intros f H. unfold aut_final in H. change (a_acc (fa_aut c32_post)) with [false; false; true; false] in H. do 4 (destruct f as [|f]; [cbn in H; try discriminate; auto|]). destruct f; discriminate. Qed.
Lemma c32_post_n : pd_n (build 2 c32_post_rules) = 2.
Proof. vm_compute. reflexivity. Qed.
Lemma c32_post_path : forall v f, ipath (aut_edges (fa_aut c32_post)) (fa_wt c32_post) 1 [0] v f -> f = 2 -> v = Some 0%Z.
Proof.
  assert (E : forall q l q1, aut_edges (fa_aut c32_post) q l q1 -> In (mk_edge q l q1) [mk_edge 3 (Some 1) 3; mk_edge 1 None 3; mk_edge 0 (Some 1) 3; mk_edge 1 (Some 0) 3;
    mk_edge 1 (Some 1) 3; mk_edge 3 (Some 1) 2; mk_edge 0 (Some 0) 3; mk_edge 1 None 2; mk_edge 0 (Some 1) 2; mk_edge 1 (Some 0) 2; mk_edge 1 (Some 1) 2]).
  { intros q l q1 H. rewrite <- c32_post_edges. exact H. }
  assert (N2 : forall w v f, ipath (aut_edges (fa_aut c32_post)) (fa_wt c32_post) 2 w v f -> w = [] /\ v = Some 0%Z).
  { intros w v f H. inversion H as [|q l q1 w1 v1 f1 H1 H2]; subst; auto. apply E in H1. cbn in H1. repeat (destruct H1 as [H1|H1]; [discriminate|]). destruct H1. }
  assert (N3 : forall w v f, ipath (aut_edges (fa_aut c32_post)) (fa_wt c32_post) 3 w v f -> (w = [] /\ f = 3) \/ exists w', w = 1 :: w').
  { intros w v f H. inversion H as [|q l q1 w1 v1 f1 H1 H2]; subst; auto. apply E in H1. cbn in H1.
    repeat (destruct H1 as [H1|H1]; [try discriminate; injection H1 as H1 H3; subst; eauto|]). destruct H1. }
  intros v f H Hf. inversion H as [|q l q1 w1 v1 f1 H1 H2 G1 G2]; subst. apply E in H1. cbn in H1.
  repeat (destruct H1 as [H1|H1]; [try discriminate; injection H1 as H1 H3; rewrite <- H1 in G2; rewrite <- ?H1, <- ?H3; rewrite <- H3 in H2; try discriminate|]); try destruct H1.
  - rewrite G2 in H2. destruct (N3 _ _ _ H2) as [[K _]|[w' K]]; discriminate.
  - injection G2 as ->. destruct (N3 _ _ _ H2) as [[_ K]|[w' K]]; discriminate.
  - rewrite G2 in H2. destruct (N2 _ _ _ H2) as [K _]; discriminate.
  - destruct (N2 _ _ _ H2) as [_ ->]. vm_compute. reflexivity.
Qed.
Lemma c32_rule : forall p o q m w l sp, In (ru p o q m w l) c32_post_rules -> sp = sop_of (mk_rule q o m w) -> user_wrules 2 c32_post_rules (mk_srule p l q sp) w.
Proof. intros p o q m w l sp H ->. exists (ru p o q m w l). cbn. ands; auto. Qed.
Lemma c32_loop : forall k w, wreach (user_wrules 2 c32_post_rules) (0, 1 :: w) (- Z.of_nat k) (0, 1 :: w).
Proof.
  induction k as [|k IH]; intros w; [constructor|]. replace (- Z.of_nat (S k))%Z with (-1 + - Z.of_nat k)%Z by lia.
  eapply wr_step; [apply (c32_rule 0 SWAP 0 1 (-1) 1 (SSwap 1)); [cbn; tauto|reflexivity]|apply (step_by_intro (mk_srule 0 1 0 (SSwap 1)) w)|]. apply IH.
Qed.
Theorem C32_post_star_refuted : exists nlab us A0 A p w, let P := build nlab us in let n := pd_n P in
  Forall (wf_urule nlab) us /\ pre_ok P (fa_aut A0) /\ no_in P (fa_aut A0) /\
  (forall e t, In (e, t) (a_edges (fa_aut A0)) -> t = TNull /\ fa_trace2 A0 e = TNull /\ fa_weight A0 e = Some 0%Z) /\
  post_star_fixed_point P false 100 A0 = done A /\ p < n /\
  best_path false (aut_edges (fa_aut A)) (fa_wt A) p w (aut_final (fa_aut A)) (Some 0%Z) /\
  unbounded false (user_wrules nlab us) (aut_lang n (fa_aut A0)) (eq (p, w)).
Proof.
  exists 2, c32_post_rules, c32_post_init, c32_post, 1, [0]. cbv zeta. rewrite c32_post_n.
  split; [apply wf_urulesb_ok; reflexivity|]. split; [apply autb_ok; reflexivity|]. split; [apply no_inb_ok; reflexivity|].
  split; [intros e t [H|[]]; apply fa_ex_default; cbn; auto; congruence|]. split; [apply c32_post_run|]. split; [lia|]. split.
  - split.
    + exists 2. split; [|reflexivity]. change (Some 0%Z) with (iplus (fa_wt c32_post 1 (Some 0) 2) (Some 0%Z)). apply (ip_cons _ _ 1 (Some 0) 2 []); [|constructor].
      assert (K : In (mk_edge 1 (Some 0) 2) (map fst (a_edges (fa_aut c32_post)))) by (rewrite c32_post_edges; cbn; tauto). exact K.
    + intros v' f H1 H2. apply c32_post_final in H2. rewrite (c32_post_path _ _ H1 H2). cbn. lia.
  - intros b. set (k := Z.to_nat (9 - b)). exists (8 - Z.of_nat k)%Z. split; [|unfold better; lia].
    exists (1, [1]), (1, [0]). split; [split; [cbn; lia|]; exists 2; split; [|reflexivity]; eapply ap_lab; [cbn; auto|constructor]|]. split; [reflexivity|].
    replace (8 - Z.of_nat k)%Z with (0 + (2 + (- Z.of_nat k + (1 + (3 + (0 + (2 + (0 + 0))))))))%Z by lia.
    eapply wr_step; [apply (c32_rule 1 SWAP 1 0 0 1 (SSwap 0)); [cbn; tauto|reflexivity]|apply (step_by_intro (mk_srule 1 1 1 (SSwap 0)) [])|].
    eapply wr_step; [apply (c32_rule 1 SWAP 0 1 2 0 (SSwap 1)); [cbn; tauto|reflexivity]|apply (step_by_intro (mk_srule 1 0 0 (SSwap 1)) [])|].
    eapply wreach_trans; [apply c32_loop|].
    eapply wr_step; [apply (c32_rule 0 PUSH 0 0 1 1 (SPush 0)); [cbn; tauto|reflexivity]|apply (step_by_intro (mk_srule 0 1 0 (SPush 0)) [])|].
    eapply wr_step; [apply (c32_rule 0 SWAP 1 1 3 0 (SSwap 1)); [cbn; tauto|reflexivity]|apply (step_by_intro (mk_srule 0 0 1 (SSwap 1)) [1])|].
    eapply wr_step; [apply (c32_rule 1 SWAP 1 0 0 1 (SSwap 0)); [cbn; tauto|reflexivity]|apply (step_by_intro (mk_srule 1 1 1 (SSwap 0)) [1])|].
    eapply wr_step; [apply (c32_rule 1 POP 1 0 2 0 SPop); [cbn; tauto|reflexivity]|apply (step_by_intro (mk_srule 1 0 1 SPop) [1])|].
    eapply wr_step; [apply (c32_rule 1 SWAP 1 0 0 1 (SSwap 0)); [cbn; tauto|reflexivity]|apply (step_by_intro (mk_srule 1 1 1 (SSwap 0)) [])|]. constructor.
Qed.
Print Assumptions C32_post_star_refuted.
