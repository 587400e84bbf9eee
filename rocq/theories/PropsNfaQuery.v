(** Property C45: matching labels of NFA edges. *)
From Coq Require Import List Arith Lia Bool Sorted.
From Verif Require Import Base BaseFacts Spec SpecFacts PdaModel PdaProof NfaModel NfaProof RegexProof ConstructProof NfaQueryModel NfaQueryProof.
Import ListNotations.

(** One label read from a set of states, then any number of epsilon moves. *)
Definition reads_to (N : nfa) (sts : list nat) (l q : nat) : Prop :=
  exists s d, In s sts /\ sts_edges (n_states N) s (Some l) d /\ apath (sts_edges (n_states N)) d [] q.

(** has_as_successor decides it, for the states that follow_epsilon keeps: accepting ones and those with a label to read. *)
Theorem C45_has_as_successor : forall addr N sts l q, (forall i j, addr i = addr j -> i = j) -> nfa_wf N ->
  (forall s, In s sts -> s < length (n_states N)) ->
  exists b, has_as_successor addr N sts l q = Some b /\
    (b = true <-> reads_to N sts l q /\ (sts_acc (n_states N) q \/ exists x q', sts_edges (n_states N) q (Some x) q')).
Proof.
  intros addr N sts l q Hi W Hs. destruct (has_as_successor_spec addr Hi N W sts l q Hs) as (b & E & B). exists b. split; auto.
  rewrite B. assert (K : fe_keep N q = true <-> sts_acc (n_states N) q \/ exists x q', sts_edges (n_states N) q (Some x) q').
  { unfold fe_keep, sts_acc, sts_edges. destruct (nth_error (n_states N) q) as [st|] eqn:Eq.
    - rewrite orb_true_iff. unfold has_non_epsilon. rewrite existsb_exists. split.
      + intros [H|(e & H1 & H2)]; [left; eauto|]. right. apply orb_true_iff in H2. unfold sym_ok. destruct (ne_neg e) eqn:En.
        * exists (S (list_max (ne_sym e))), (ne_dst e), st, e. rewrite En. repeat split; auto. intros K.
          assert (M := proj1 (list_max_le (ne_sym e) (list_max (ne_sym e))) (le_n _)). rewrite Forall_forall in M. apply M in K. lia.
        * destruct (ne_sym e) as [|x xs] eqn:Ex; [destruct H2; discriminate|]. exists x, (ne_dst e), st, e. rewrite En, Ex. repeat split; auto. left; auto.
      + intros [(st' & H1 & H2)|(x & q' & st' & e & H1 & H2 & H3 & H4)]; [left; congruence|]. right. exists e. assert (st' = st) by congruence. subst.
        split; auto. unfold sym_ok in H4. destruct (ne_neg e); auto. destruct (ne_sym e); auto.
    - split; [discriminate|]. intros [(st' & H1 & H2)|(x & q' & st' & e & H1 & H2 & H3 & H4)]; discriminate. }
  rewrite K. unfold reads_to, eps_to, nE. tauto.
Qed.
Print Assumptions C45_has_as_successor.

(** intersect_edge_labels: defined, and every returned label is right. It returns all of them provided that no label of
    [labels] is read by two of the edges that lead to the goal state. *)
Theorem C45_intersect_edge_labels_partial : forall addr N sts q labels, (forall i j, addr i = addr j -> i = j) -> nfa_wf N ->
  (forall s, In s sts -> s < length (n_states N)) -> (forall i j a b, i < j -> nth_error labels i = Some a -> nth_error labels j = Some b -> a < b) ->
  exists r es, intersect_edge_labels addr N sts q labels = Some r /\ edges_from N sts = Some es /\
    (forall x, In x r -> In x labels /\ reads_to N sts x q) /\
    ((forall i j e e' x, nth_error es i = Some e -> nth_error es j = Some e' -> In x labels -> sym_ok e x -> sym_ok e' x ->
        apath (sts_edges (n_states N)) (ne_dst e) [] q -> apath (sts_edges (n_states N)) (ne_dst e') [] q -> i = j) ->
     forall x, In x labels -> reads_to N sts x q -> In x r).
Proof.
  intros addr N sts q labels Hi W Hs Hl.
  assert (SL : ssorted labels).
  { unfold ssorted. clear -Hl. induction labels as [|x l IH]; [constructor|]. constructor.
    - apply IH. intros i j a b Hij Ha Hb. apply (Hl (S i) (S j)); auto; lia.
    - apply Forall_forall. intros y Hy. apply In_nth_error in Hy. destruct Hy as [j Hj]. apply (Hl 0 (S j)); auto; lia. }
  destruct (edges_from_spec addr Hi N sts Hs) as (es & E & He).
  set (P := fun e => match leads_to_by_epsilon addr N (ne_dst e) q with Some b => b | None => false end).
  destruct (iel_loop_spec addr Hi N W q labels P SL) with (es := es) (acc := @nil nat) as (r & Er & R1 & R2 & R3).
  { intros e b Hb. unfold P. rewrite Hb. auto. }
  { intros e Hin. eapply edges_from_wf; eauto. }
  { intros x []. }
  assert (PS : forall e, In e es -> (P e = true <-> apath (sts_edges (n_states N)) (ne_dst e) [] q)).
  { intros e Hin. pose proof (edges_from_wf N W sts es e E Hin) as [D _]. destruct (leads_to_spec addr Hi N W (ne_dst e) q D) as (b & Eb & Hb).
    unfold P. rewrite Eb. exact Hb. }
  assert (CS : forall e x, In e es -> (ne_contains e x = true <-> sym_ok e x)).
  { intros e x Hin. apply ne_contains_ok. eapply edges_from_wf; eauto. }
  exists r, es. split; [|split; [auto|split]].
  - unfold intersect_edge_labels. rewrite (proj2 (is_sorted_spec labels)); [|].
    + rewrite E. exact Er.
    + clear -SL. induction SL as [|x l H IH Hx]; constructor; auto. rewrite Forall_forall in *. intros y Hy. apply Hx in Hy. lia.
  - intros x Hx. split; [apply R1; auto|]. apply R2 in Hx. destruct Hx as [[]|(e & H1 & H2 & H3)].
    apply PS in H2; auto. apply CS in H3; auto. apply He in H1. destruct H1 as (s & st & K1 & K2 & K3).
    exists s, (ne_dst e). split; auto. split; auto. exists st, e. auto.
  - intros Hd x Hx (s & d & K1 & (st & e & K2 & K3 & <- & K4) & K5). cbn [app] in R3.
    assert (Hin : In e es) by (apply He; eauto). apply R3.
    + assert (Hd' : forall i j e e' x, nth_error es i = Some e -> nth_error es j = Some e' -> In x labels -> ne_contains e x = true -> ne_contains e' x = true ->
                    P e = true -> P e' = true -> i = j).
      { intros i j a b y Ha Hb Hy C1 C2 P1 P2. apply (Hd i j a b y); auto; try (apply CS; auto; eapply nth_error_In; eauto); apply PS; auto; eapply nth_error_In; eauto. }
      assert (NL : NoDup labels). { clear -SL. induction SL as [|y l H IH Hy]; constructor; auto. rewrite Forall_forall in Hy. intros K. apply Hy in K. lia. }
      clear -Hd' NL. unfold parts. induction es as [|a es IH]; [constructor|]. cbn [flat_map].
      assert (IH' : NoDup (flat_map (fun e => if P e then filter (ne_contains e) labels else []) es)).
      { apply IH. intros i j e e' x Hi Hj. intros. assert (S i = S j); [|lia]. apply (Hd' (S i) (S j) e e' x); auto. }
      destruct (P a) eqn:Pa; auto. clear IH. revert IH'. generalize (NoDup_filter (ne_contains a) NL). intros NF IH'.
      apply NoDup_app_intro; auto. intros y Hy1 Hy2. apply filter_In in Hy1. apply in_flat_map in Hy2. destruct Hy2 as (b & Hb & Hy2).
      destruct (P b) eqn:Pb; [|destruct Hy2]. apply filter_In in Hy2. apply In_nth_error in Hb. destruct Hb as [j Hb].
      assert (0 = S j); [|discriminate]. apply (Hd' 0 (S j) a b y); auto; tauto.
    + unfold parts. apply in_flat_map. exists e. split; auto. rewrite (proj2 (PS e Hin)) by auto. apply filter_In. split; auto. apply CS; auto.
Qed.
Print Assumptions C45_intersect_edge_labels_partial.

(** ([1]|[1]|[2]) [3], as built by the parser's actions. *)
Definition c45_nfa (a b c : nat) : nfa := nfa_concat (nfa_or (nfa_or (nfa_set false [a]) (nfa_set false [b])) (nfa_set false [c])) (nfa_set false [3]).
Example C45_nfa_wf : forall a b c, nfa_wf (c45_nfa a b c).
Proof. intros. unfold c45_nfa. apply concat_wf; [apply or_wf; [apply or_wf|]|]; apply set_wf. Qed.
(** Overlapping edges make the result shorter than the true one; several edges make it unsorted although the callers pass
    it to functions on sorted ranges. State 8 is where [3] begins; 0, 2, 5 are the compiled initial states. *)
Theorem C45_intersect_edge_labels_refuted :
  (exists addr N sts q labels x, (forall i j, addr i = addr j -> i = j) /\ nfa_wf N /\ (forall s, In s sts -> s < length (n_states N)) /\
     is_sorted Nat.ltb labels = true /\ In x labels /\ has_as_successor addr N sts x q = Some true /\
     exists r, intersect_edge_labels addr N sts q labels = Some r /\ ~ In x r) /\
  (exists addr N sts q labels r, (forall i j, addr i = addr j -> i = j) /\ nfa_wf N /\ (forall s, In s sts -> s < length (n_states N)) /\
     is_sorted Nat.ltb labels = true /\ intersect_edge_labels addr N sts q labels = Some r /\ is_sorted Nat.ltb r = false).
Proof.
  split.
  - exists (fun i => i), (c45_nfa 1 1 2), [0; 2; 5], 8, [1; 2], 2. split; auto. split; [apply C45_nfa_wf|].
    split; [intros s [<-|[<-|[<-|[]]]]; cbn; lia|]. repeat split; auto; [right; left; auto|].
    exists [1; 1]. split; [reflexivity|]. intros [H|[H|[]]]; discriminate.
  - exists (fun i => i), (c45_nfa 2 1 7), [0; 2; 5], 8, [1; 2; 4], [2; 1]. split; auto. split; [apply C45_nfa_wf|].
    split; [intros s [<-|[<-|[<-|[]]]]; cbn; lia|]. repeat split; auto.
Qed.
Print Assumptions C45_intersect_edge_labels_refuted.
Example C45_example : (forall i j : nat, i = j -> i = j) /\
  option_map n_init (nfa_compile (fun i => i) (c45_nfa 1 2 5)) = Some [0; 2; 5] /\
  intersect_edge_labels (fun i => i) (c45_nfa 1 2 5) [0; 2; 5] 8 [2; 4; 5] = Some [2; 5] /\
  has_as_successor (fun i => i) (c45_nfa 1 2 5) [0; 2; 5] 4 8 = Some false.
Proof. repeat split; auto. Qed.
