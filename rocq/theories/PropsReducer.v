(** C33, C34: removal of useless rules, internal/Reducer.h. *)
From Coq Require Import List Arith Lia Bool ZArith Relations.
From Verif Require Import Base BaseFacts Spec ShortSpec ReducerSpec PdaModel PdaProof StoreProof SolverModel PostShortProof ShortProof ReducerModel ReducerProof ExHelp.
Import ListNotations.

Notation rtc := (clos_refl_trans nat).
(** Some run leads from [init] with stack [st] to [term]. *)
Definition reaches (R : wpds) (init : nat) (st : list nat) (term : nat) : Prop := exists ss c', wrun R (init, st) ss c' /\ fst c' = term.

(** * C34: the pruning of states that are not connected to the initial or the terminal state, after any calls of add_rule and
   clear_state. *)
(** forwards_prune: exactly the rules stay whose source is reachable in the graph of the rules, and so do all runs from there. *)
Theorem C34_forwards_prune : forall nlab cs P init, Forall (wf_call nlab) cs -> do_calls nlab cs = Some P -> init < pd_n P ->
  exists P', forwards_prune P init = Some P' /\
    (forall s w, pda_wrules P' s w <-> pda_wrules P s w /\ rtc (rule_edge (pda_wrules P)) init (s_from s)) /\
    (forall st ss c', wrun (pda_wrules P) (init, st) ss c' <-> wrun (pda_wrules P') (init, st) ss c').
Proof.
  intros nlab cs P init HF HC HI. destruct (calls_wfr _ _ _ HF HC) as [W Hl]. destruct (forwards_prune_spec P init W HI) as (P' & E & R & H). exists P'. split; auto.
  assert (ED : 0 < pd_nlab P -> forall p q, greach (succ_edge P) p q <-> rtc (rule_edge (pda_wrules P)) p q).
  { intros L p q. rewrite greach_rt. split; intros G; (eapply clos_refl_trans_ind with (P := fun a b => rtc _ a b) in G; [exact G|intros a b Hab; apply rt_step, (succ_edge_rule P a b W L); auto|intros; apply rt_refl|intros a b c _ I1 _ I2; eapply rt_trans; eauto]). }
  split.
  - intros s w. split.
    + intros Hs. assert (H0 := red_has P P' (s, w) R Hs). split; [exact H0|]. destruct (has_lt P (s, w) W H0) as (_ & _ & L). apply ED; [lia|]. apply (has_at P' (s, w)) in Hs. destruct Hs as (r & ls & Hin & _). apply H in Hin. apply Hin.
    + intros [Hs G]. destruct (has_lt P (s, w) W Hs) as (_ & _ & L). apply ED in G; [|lia]. assert (EE := proj1 (has_edge P (s, w) W Hs)). apply (has_at P (s, w)) in Hs. destruct Hs as (r & ls & Hin & Hm & Et & Hr).
      apply (has_at P' (s, w)). exists r, ls. rewrite (rd_nlab _ _ R). split; auto. apply H. split; auto. split; auto. cbn [fst] in *. rewrite <- Et. eapply greach_snoc; eauto.
  - intros st ss c'. split; intros [H1 H2]; (split; [auto|]); intros s Hs.
    + exact (forwards_keeps P init P' st ss c' W HI E H1 H2 s Hs).
    + exact (red_has P P' s R (H2 s Hs)).
Qed.
Print Assumptions C34_forwards_prune.

(** backwards_prune: all runs to the terminal state stay and no rule is added; after calls of add_rule only, exactly those rules stay
   whose target is connected to the terminal state by calls of add_rule. *)
Theorem C34_backwards_prune : forall nlab cs P term, Forall (wf_call nlab) cs -> do_calls nlab cs = Some P -> term < pd_n P ->
  exists P', backwards_prune P term = Some P' /\ (forall s w, pda_wrules P' s w -> pda_wrules P s w) /\
    (forall c ss c', fst c' = term -> (wrun (pda_wrules P) c ss c' <-> wrun (pda_wrules P') c ss c')).
Proof.
  intros nlab cs P term HF HC HI. destruct (calls_wfr _ _ _ HF HC) as [W Hl]. destruct (backwards_prune_spec P term W HI) as (P' & E & R & H). exists P'. split; auto. split; [intros s w; exact (red_has P P' (s, w) R)|].
  intros c ss c' Et. split; intros [H1 H2]; (split; [auto|]); intros s Hs.
  - exact (backwards_keeps P term P' c ss c' W HI E H1 Et H2 s Hs).
  - exact (red_has P P' s R (H2 s Hs)).
Qed.
Print Assumptions C34_backwards_prune.
Theorem C34_backwards_prune_exact : forall nlab us term, let P := build nlab us in Forall (wf_urule nlab) us -> term < pd_n P ->
  exists P', backwards_prune P term = Some P' /\
    (forall s w, pda_wrules P' s w <-> user_wrules nlab us s w /\ rtc (call_edge us) (s_to s) term).
Proof.
  intros nlab us term P HF HI. destruct (build_wfr _ _ HF) as [W _]. destruct (backwards_prune_spec P term W HI) as (P' & E & R & H). exists P'. split; auto. intros s w. rewrite <- (build_wrules _ _ HF). fold P. split.
  - intros Hs. split; [exact (red_has P P' (s, w) R Hs)|]. apply (has_at P' (s, w)) in Hs. destruct Hs as (r & ls & Hin & _ & Et & _). apply H in Hin. destruct Hin as [_ G]. cbn [fst] in *. rewrite <- Et in G. apply (build_back nlab us). auto.
  - intros [Hs G]. apply (has_at P (s, w)) in Hs. destruct Hs as (r & ls & Hin & Hm & Et & Hr). apply (has_at P' (s, w)). exists r, ls. rewrite (rd_nlab _ _ R). split; auto. apply H. split; auto. cbn [fst] in *. rewrite <- Et. apply (build_back nlab us). auto.
Qed.
Print Assumptions C34_backwards_prune_exact.
(** target_tos_prune: it ends, all runs to the terminal state stay, and no rule is left after which the run is stuck. *)
Theorem C34_target_tos_prune : forall nlab cs P term, Forall (wf_call nlab) cs -> do_calls nlab cs = Some P ->
  answers (fun fuel => target_tos_prune fuel P term) (fun P' => (forall s w, pda_wrules P' s w -> pda_wrules P s w) /\ no_dead_end (pda_wrules P') term /\
    (forall c ss c', fst c' = term -> (wrun (pda_wrules P) c ss c' <-> wrun (pda_wrules P') c ss c'))).
Proof.
  intros nlab cs P term HF HC. destruct (calls_wfr _ _ _ HF HC) as [W Hl]. assert (T := target_within term P W). apply (within_answers _ (pd_n P + mu P)). intros fuel. destruct (T fuel) as [(P' & E & R & H)|]; [left|right; auto].
  exists P'. split; auto. split; [intros s w; exact (red_has P P' (s, w) R)|]. split; [eapply target_ex; eauto|]. intros c ss c' Et. split; intros [H1 H2]; (split; [auto|]).
  - intros s Hs. apply (H c ss c' H1 Et H2); auto.
  - intros s Hs. exact (red_has P P' s R (H2 s Hs)).
Qed.
Print Assumptions C34_target_tos_prune.

(** 1 -> 2 -> 0 and 1 -> 3, 4 -> 0; labels 0, 1, 2. *)
Definition red_rules : list urule :=
  [mk_urule 1 (mk_rule 2 PUSH 1 3) false [0]; mk_urule 2 (mk_rule 5 POP 0 1) false [1; 2]; mk_urule 5 (mk_rule 0 SWAP 2 0) true [];
   mk_urule 1 (mk_rule 3 PUSH 2 0) true []; mk_urule 4 (mk_rule 0 POP 0 0) false [1]; mk_urule 2 (mk_rule 6 SWAP 0 0) false [1]; mk_urule 6 (mk_rule 0 SWAP 2 0) false [2]].
Definition count_rules (P : pda) : nat := length (concat (map ps_rules (pd_states P))).
Definition count_labels (P : pda) : nat := list_sum (map (fun x => if wild (snd x) then pd_nlab P else length (labs (snd x))) (concat (map ps_rules (pd_states P)))).
Example C34_example : let P := build 3 red_rules in Forall (wf_urule 3) red_rules /\ count_rules P = 7 /\
  option_map count_rules (forwards_prune P 1) = Some 6 /\ option_map count_rules (backwards_prune P 0) = Some 6 /\
  count_labels P = 12 /\ match target_tos_prune 100 P 0 with Some (Some P') => Some (count_labels P') | _ => None end = Some 8.
Proof. cbn zeta. split; [apply wf_urulesb_ok; reflexivity|]. repeat split; vm_compute; reflexivity. Qed.

(** * C33: reduce with terminal state 0 and initial rules that push. It ends, counts do not grow, no rule is added, and the runs from
   the initial state that end with their first visit to the terminal state are the same; with aggressivity 2 or 4 this holds for the
   runs that only look at symbols pushed by them, but for the first and the last rule. *)
Theorem C33_reduce_runs : forall nlab us aggr init, let P := build nlab us in let U := user_wrules nlab us in
  Forall (wf_urule nlab) us -> init < pd_n P -> (forall u, In u us -> u_from u = init -> r_to (u_rule u) <> 0 -> r_op (u_rule u) = PUSH) ->
  answers (fun fuel => reduce fuel P aggr init 0) (fun r => let R' := pda_wrules (fst r) in
    snd (snd r) <= fst (snd r) /\ pda_size P init 0 = Some (fst (snd r)) /\ pda_size (fst r) init 0 = Some (snd (snd r)) /\
    (forall s w, R' s w -> U s w) /\
    (forall st ss c', fst c' = 0 -> first_visit 0 ss -> (aggr = 2 \/ aggr = 4 -> stays_above (init, st) ss) -> (wrun U (init, st) ss c' <-> wrun R' (init, st) ss c')) /\
    (0 < aggr -> forall s w, R' s w -> rtc (rule_edge U) init (s_from s) /\ rtc (call_edge us) (s_to s) 0) /\
    (3 <= aggr -> no_dead_end R' 0)).
Proof.
  intros nlab us aggr init P U HF HI HP. destruct (build_wfr _ _ HF) as [W Hl]. fold P in W, Hl.
  assert (IP : init_push P init 0). { intros r ls Hin Ht. destruct (proj1 (build_keys _ _ HF init r) (ex_intro _ ls Hin)) as (u & H1 & H2 & <-). auto. }
  destruct (reduce_spec P aggr init W HI IP) as [b S]. apply (within_answers _ b). intros fuel. destruct (S fuel) as [(r & E & R & A1 & A2 & A3 & K & CN & ND)|]; [left|right; auto]. exists r. split; auto. cbn zeta.
  assert (HB : forall s w, pda_wrules P s w <-> U s w) by (apply build_wrules; auto).
  assert (HS : forall s w, pda_wrules (fst r) s w -> U s w) by (intros s w H; apply HB; exact (red_has P (fst r) (s, w) R H)).
  split; auto. split; auto. split; auto. split; auto. split; [|split; [|auto]].
  - intros st ss c' Et HV HD. split; intros [H1 H2]; (split; [auto|]); intros s Hs.
    + apply (K st ss c' H1 Et HV); auto; [|intros x Hx; apply HB; apply H2; auto]. unfold is_ds. intros D. apply HD. apply orb_true_iff in D. destruct D as [D|D]; apply Nat.eqb_eq in D; auto.
    + apply HS. auto.
  - intros La s w Hs. destruct (CN La s w Hs) as [G1 G2]. split; [|apply (build_back nlab us); auto]. assert (L := proj2 (proj2 (has_lt (fst r) (s, w) (rd_wf _ _ R) Hs))). rewrite (rd_nlab _ _ R) in L.
    apply greach_rt in G1.
    assert (Z : forall a b0, rtc (succ_edge P) a b0 -> rtc (rule_edge U) a b0); [|apply Z; auto]. clear G1. intros a b0 G1. induction G1 as [a b0 Hab|a|a b0 c _ I1 _ I2]; [|apply rt_refl|apply rt_trans with b0; auto]. apply rt_step. apply (succ_edge_rule P a b0 W ltac:(lia)) in Hab. destruct Hab as (x & v & Hx & E1 & E2). exists x, v. split; auto. apply HB. auto.
Qed.
Print Assumptions C33_reduce_runs.
(** Hence, without the aggressivities 2 and 4, the terminal state is reached from the same initial stacks. *)
Theorem C33_reduce_verdict_partial : forall nlab us aggr init, let P := build nlab us in let U := user_wrules nlab us in
  Forall (wf_urule nlab) us -> init < pd_n P -> (forall u, In u us -> u_from u = init -> r_to (u_rule u) <> 0 -> r_op (u_rule u) = PUSH) -> aggr <> 2 -> aggr <> 4 ->
  answers (fun fuel => reduce fuel P aggr init 0) (fun r => forall st, reaches U init st 0 <-> reaches (pda_wrules (fst r)) init st 0).
Proof.
  intros nlab us aggr init P U HF HI HP N2 N4. destruct (C33_reduce_runs nlab us aggr init HF HI HP) as [A B]. split; [|exact B]. intros fuel. destruct (A fuel) as [|(r & E & _ & _ & _ & HS & K & _)]; [left; auto|right]. exists r. split; auto.
  intros st. split; intros (ss & c' & [H1 H2] & Et).
  - destruct (first_part 0 _ _ _ H1 Et) as (ss1 & ss2 & c1 & -> & G1 & G2 & G3). exists ss1, c1. split; auto. apply K; auto; [intros [|]; contradiction|]. split; auto. intros s Hs. apply H2. apply in_or_app; auto.
  - exists ss, c'. split; auto. split; auto. intros s Hs. apply HS. apply H2; auto.
Qed.
Print Assumptions C33_reduce_verdict_partial.
Lemma user_at : forall nlab us k u s, nth_error us k = Some u -> s_from (fst s) = u_from u -> s_to (fst s) = r_to (u_rule u) -> s_op (fst s) = sop_of (u_rule u) ->
  (if u_wild u then s_pre (fst s) < nlab else In (s_pre (fst s)) (u_pre u)) -> snd s = r_w (u_rule u) -> user_wrules nlab us (fst s) (snd s).
Proof. intros nlab us k u s H H1 H2 H3 H4 H5. exists u. split; [eapply nth_error_In; eauto|auto]. Qed.
Example C33_example : let P := build 3 red_rules in
  Forall (wf_urule 3) red_rules /\ 1 < pd_n P /\ (forall u, In u red_rules -> u_from u = 1 -> r_to (u_rule u) <> 0 -> r_op (u_rule u) = PUSH) /\
  reaches (user_wrules 3 red_rules) 1 [0] 0 /\ (exists P', reduce 100 P 3 1 0 = done (P', (13, 6)) /\ count_rules P' = 4).
Proof.
  cbn zeta. split; [apply wf_urulesb_ok; reflexivity|]. split; [vm_compute; lia|]. split; [|split].
  - intros u Hu Hf Ht. cbn in Hu. repeat (destruct Hu as [<-|Hu]; [cbn in *; try lia; try reflexivity|]). destruct Hu.
  - exists [(mk_srule 1 0 2 (SPush 1), 3%Z); (mk_srule 2 1 5 SPop, 1%Z); (mk_srule 5 0 0 (SSwap 2), 0%Z)], (0, [2]). split; [|reflexivity]. split.
    + econstructor; [apply (step_by_intro (mk_srule 1 0 2 (SPush 1)) [])|]. econstructor; [apply (step_by_intro (mk_srule 2 1 5 SPop) [0])|]. econstructor; [apply (step_by_intro (mk_srule 5 0 0 (SSwap 2)) [])|]. constructor.
    + intros s Hs. cbn in Hs. destruct Hs as [<-|[<-|[<-|[]]]]; [apply (user_at 3 red_rules 0 _ _ eq_refl)|apply (user_at 3 red_rules 1 _ _ eq_refl)|apply (user_at 3 red_rules 2 _ _ eq_refl)]; cbn; auto.
  - eexists. split; [vm_compute; reflexivity|reflexivity].
Qed.

(** No rule leaves the initial state. *)
Lemma no_rules_no_run : forall P init st term, rules_at P init = [] -> init <> term -> ~ reaches (pda_wrules P) init st term.
Proof.
  intros P init st term E N (ss & c' & [H1 H2] & Et). inversion H1 as [|c s c1 ss1 c2 HS HC]; subst; [contradiction|]. assert (Hs := H2 s (or_introl eq_refl)). destruct (step_by_inv _ _ _ HS) as (w & Ew & _). injection Ew as Ei _.
  apply (has_at P s) in Hs. destruct Hs as (r & ls & Hin & _). rewrite <- Ei, E in Hin. destruct Hin.
Qed.
(** With aggressivity 2 or 4 a run that pops down to the initial stack is lost, for the approximation does not have its symbols. *)
Definition dual_rules : list urule :=
  [mk_urule 1 (mk_rule 2 PUSH 0 0) false [1]; mk_urule 2 (mk_rule 3 POP 0 0) false [0]; mk_urule 3 (mk_rule 4 SWAP 1 0) false [1]; mk_urule 4 (mk_rule 0 POP 0 0) false [1]].
Theorem C33_dual_stack_refuted : Forall (wf_urule 2) dual_rules /\ (forall u, In u dual_rules -> u_from u = 1 -> r_op (u_rule u) = PUSH) /\
  reaches (user_wrules 2 dual_rules) 1 [1] 0 /\
  forall aggr, aggr = 2 \/ aggr = 4 -> exists P' n, reduce 100 (build 2 dual_rules) aggr 1 0 = done (P', n) /\ ~ reaches (pda_wrules P') 1 [1] 0.
Proof.
  split; [apply wf_urulesb_ok; reflexivity|]. split; [|split].
  - intros u Hu Hf. cbn in Hu. repeat (destruct Hu as [<-|Hu]; [cbn in *; try lia; try reflexivity|]). destruct Hu.
  - exists [(mk_srule 1 1 2 (SPush 0), 0%Z); (mk_srule 2 0 3 SPop, 0%Z); (mk_srule 3 1 4 (SSwap 1), 0%Z); (mk_srule 4 1 0 SPop, 0%Z)], (0, []). split; [|reflexivity]. split.
    + econstructor; [apply (step_by_intro (mk_srule 1 1 2 (SPush 0)) [])|]. econstructor; [apply (step_by_intro (mk_srule 2 0 3 SPop) [1])|]. econstructor; [apply (step_by_intro (mk_srule 3 1 4 (SSwap 1)) [])|].
      econstructor; [apply (step_by_intro (mk_srule 4 1 0 SPop) [])|]. constructor.
    + intros s Hs. cbn in Hs. destruct Hs as [<-|[<-|[<-|[<-|[]]]]]; [apply (user_at 2 dual_rules 0 _ _ eq_refl)|apply (user_at 2 dual_rules 1 _ _ eq_refl)|apply (user_at 2 dual_rules 2 _ _ eq_refl)|apply (user_at 2 dual_rules 3 _ _ eq_refl)]; cbn; auto.
  - intros aggr [-> | ->]; (eexists; eexists; split; [vm_compute; reflexivity|]; apply no_rules_no_run; [reflexivity|discriminate]).
Qed.
Print Assumptions C33_dual_stack_refuted.
(** A terminal state other than 0 without rules is cleared by the pruning loop, with all rules into it, at every aggressivity but 0. *)
Definition term_rules : list urule := [mk_urule 1 (mk_rule 2 PUSH 0 0) false [1]].
Theorem C33_terminal_refuted : Forall (wf_urule 2) term_rules /\ reaches (user_wrules 2 term_rules) 1 [1] 2 /\
  forall aggr, 1 <= aggr <= 4 -> exists P' n, reduce 100 (build 2 term_rules) aggr 1 2 = done (P', n) /\ ~ reaches (pda_wrules P') 1 [1] 2.
Proof.
  split; [apply wf_urulesb_ok; reflexivity|]. split.
  - exists [(mk_srule 1 1 2 (SPush 0), 0%Z)], (2, [0; 1]). split; [|reflexivity]. split.
    + econstructor; [apply (step_by_intro (mk_srule 1 1 2 (SPush 0)) [])|]. constructor.
    + intros s [<-|[]]. apply (user_at 2 term_rules 0 _ _ eq_refl); cbn; auto.
  - intros aggr [L1 L2]. assert (C : aggr = 1 \/ aggr = 2 \/ aggr = 3 \/ aggr = 4) by lia.
    destruct C as [->|[->|[->| ->]]]; (eexists; eexists; split; [vm_compute; reflexivity|]; apply no_rules_no_run; [reflexivity|discriminate]).
Qed.
Print Assumptions C33_terminal_refuted.
(** An initial rule that does not push makes an assertion fail. *)
Theorem C33_initial_rule_refuted : let us := [mk_urule 1 (mk_rule 2 SWAP 1 0) false [1]; mk_urule 2 (mk_rule 0 POP 0 0) false [1]] in
  Forall (wf_urule 2) us /\ forall fuel, reduce fuel (build 2 us) 1 1 0 = None.
Proof. cbn zeta. split; [apply wf_urulesb_ok; reflexivity|]. intros fuel. reflexivity. Qed.
Print Assumptions C33_initial_rule_refuted.
