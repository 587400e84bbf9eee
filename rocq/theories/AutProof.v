(** Facts about the automaton store (AutModel). *)
From Coq Require Import List Arith Lia Bool Permutation Sorted.
From Verif Require Import Base BaseFacts Spec PdaModel AutModel.
Import ListNotations.

Lemma lab_eqb_eq : forall a b, lab_eqb a b = true <-> a = b.
Proof.
  intros [x|] [y|]; cbn; split; intros H; try discriminate; auto.
  - apply Nat.eqb_eq in H; subst; auto.
  - injection H as ->. apply Nat.eqb_refl.
Qed.

Lemma edge_eqb_eq : forall a b, edge_eqb a b = true <-> a = b.
Proof.
  intros [a1 a2 a3] [b1 b2 b3]; unfold edge_eqb; cbn. rewrite !andb_true_iff, !Nat.eqb_eq, lab_eqb_eq.
  split; [intros [[-> ->] ->]; auto|intros H; injection H as -> -> ->; auto].
Qed.

Lemma edge_eqb_refl : forall a, edge_eqb a a = true.
Proof. intros; apply edge_eqb_eq; auto. Qed.

Lemma edge_eq_dec : forall a b : edge, {a = b} + {a <> b}.
Proof. intros. destruct (edge_eqb a b) eqn:E; [left; apply edge_eqb_eq; auto|right; intros ->; rewrite edge_eqb_refl in E; discriminate]. Qed.

Lemma find_edge_Some : forall e l t, find_edge e l = Some t -> In (e, t) l.
Proof.
  induction l as [|[e' t'] l IH]; cbn; [discriminate|]. intros t H.
  destruct (edge_eqb e' e) eqn:E; auto. apply edge_eqb_eq in E. left; congruence.
Qed.

Lemma find_edge_None : forall e l, find_edge e l = None <-> ~ In e (map fst l).
Proof.
  induction l as [|[e' t'] l IH]; cbn; [tauto|].
  destruct (edge_eqb e' e) eqn:E.
  - apply edge_eqb_eq in E; subst. split; [discriminate|intros H; exfalso; auto].
  - rewrite IH. split; intros H; [intros [->|H']; auto; rewrite edge_eqb_refl in E; discriminate|intros H'; auto].
Qed.

Lemma find_edge_In : forall e l, In e (map fst l) -> exists t, find_edge e l = Some t.
Proof. intros e l H. destruct (find_edge e l) eqn:E; eauto. apply find_edge_None in E. contradiction. Qed.

Lemma find_edge_nodup : forall e t l, NoDup (map fst l) -> In (e, t) l -> find_edge e l = Some t.
Proof.
  induction l as [|[e' t'] l IH]; cbn; [tauto|]. intros Hn Hin. inversion Hn; subst.
  destruct Hin as [Hin|Hin].
  - injection Hin as -> ->. rewrite edge_eqb_refl; auto.
  - destruct (edge_eqb e' e) eqn:E; auto. apply edge_eqb_eq in E; subst. exfalso. apply H1. apply (in_map fst) in Hin; auto.
Qed.

Lemma dedup_In : forall l seen x, In x (dedup seen l) <-> In x l /\ ~ In x seen.
Proof.
  induction l as [|y l IH]; intros seen x; cbn; [tauto|].
  destruct (memb y seen) eqn:E.
  - apply memb_In in E. rewrite IH. split; intros [H1 H2]; split; auto. destruct H1 as [->|?]; auto; contradiction.
  - assert (N: ~ In y seen) by (intros H; apply memb_In in H; congruence).
    cbn. rewrite IH. cbn. split.
    + intros [->|[H1 H2]]; split; auto.
    + intros [[->|H1] H2]; auto. destruct (Nat.eq_dec y x); auto. right; split; auto. intros [?|?]; auto.
Qed.

Lemma dedup_NoDup : forall l seen, NoDup (dedup seen l).
Proof.
  induction l as [|y l IH]; intros seen; cbn; [constructor|].
  destruct (memb y seen) eqn:E; auto. constructor; auto. rewrite dedup_In. cbn. tauto.
Qed.

Lemma lab_insert_In : forall l ls x, In x (lab_insert l ls) <-> x = l \/ In x ls.
Proof.
  induction ls as [|y ls IH]; intros x; cbn; [intuition|].
  destruct (lab_ltb y l); cbn; [rewrite IH; intuition|].
  destruct (lab_eqb y l) eqn:E; cbn; [apply lab_eqb_eq in E; subst; intuition|intuition].
Qed.

(** [a_ord] only permutes. *)
Definition wf_ord (A : aut) : Prop := forall q l, Permutation (a_ord A q l) l.

Lemma tos_In : forall A q t, wf_ord A -> (In t (tos A q) <-> exists l, aut_edges A q l t).
Proof.
  intros A q t W. unfold tos. split.
  - intros H. apply (Permutation_in _ (W _ _)) in H. apply dedup_In in H. destruct H as [H _].
    apply in_map_iff in H. destruct H as [[e tr] [E H]]. apply filter_In in H. destruct H as [H1 H2]; cbn in *.
    apply in_rev in H1. apply Nat.eqb_eq in H2. exists (e_lab e). unfold aut_edges, edges_of.
    apply in_map_iff. exists (e, tr); split; auto. destruct e; cbn in *; subst; auto.
  - intros [l H]. unfold aut_edges, edges_of in H. apply in_map_iff in H. destruct H as [[e tr] [E H]]; cbn in E; subst e.
    apply (Permutation_in _ (Permutation_sym (W _ _))). apply dedup_In; split; [|intros []].
    apply in_map_iff. exists (mk_edge q l t, tr); split; auto. apply filter_In; split; [apply -> in_rev; auto|cbn; apply Nat.eqb_refl].
Qed.

Lemma tos_NoDup : forall A q, wf_ord A -> NoDup (tos A q).
Proof. intros A q W. unfold tos. eapply Permutation_NoDup; [apply Permutation_sym, W|apply dedup_NoDup]. Qed.

Lemma labels_between_In : forall A q t l, In l (labels_between A q t) <-> aut_edges A q l t.
Proof.
  intros. unfold labels_between, aut_edges, edges_of. induction (a_edges A) as [|[e tr] es IH]; cbn; [tauto|].
  destruct (Nat.eqb (e_src e) q && Nat.eqb (e_dst e) t) eqn:E; cbn.
  - rewrite lab_insert_In, IH. apply andb_true_iff in E. rewrite !Nat.eqb_eq in E. destruct E as [<- <-].
    split; intros [H|H]; auto; left; destruct e; cbn in *; congruence.
  - rewrite IH. split; auto. intros [->|H]; auto. cbn in E. rewrite !Nat.eqb_refl in E. discriminate.
Qed.
