(** Boolean checkers for the hypotheses of the theorems, used only to exhibit concrete instances. *)
From Coq Require Import List Arith Lia Bool ZArith Permutation Sorted.
From Verif Require Import Base BaseFacts Spec PdaModel PdaProof AutModel AutProof PreStarProof PreStarLang SolverProof.
Import ListNotations.

Fixpoint ssortedb (l : list nat) : bool :=
  match l with [] => true | x :: l' => forallb (fun y => Nat.ltb x y) l' && ssortedb l' end.
Lemma ssortedb_ok : forall l, ssortedb l = true -> ssorted l.
Proof.
  induction l as [|x l IH]; cbn; intros H; [constructor|]. apply andb_true_iff in H. destruct H as [H1 H2]. apply ssorted_cons; split; [apply IH; auto|].
  intros y Hy. rewrite forallb_forall in H1. apply Nat.ltb_lt; auto.
Qed.

Definition wf_uruleb (nlab : nat) (u : urule) : bool :=
  ssortedb (u_pre u) && forallb (fun l => Nat.ltb l nlab) (u_pre u) &&
  match r_op (u_rule u) with PUSH | SWAP => Nat.ltb (r_opl (u_rule u)) nlab | _ => true end.
Lemma wf_urulesb_ok : forall nlab us, forallb (wf_uruleb nlab) us = true -> Forall (wf_urule nlab) us.
Proof.
  intros nlab us H. rewrite forallb_forall in H. apply Forall_forall. intros u Hu. specialize (H u Hu). unfold wf_uruleb in H.
  apply andb_true_iff in H. destruct H as [H H3]. apply andb_true_iff in H. destruct H as [H1 H2]. unfold wf_urule. ands.
  - apply ssortedb_ok; auto.
  - intros l Hl. rewrite forallb_forall in H2. apply Nat.ltb_lt; auto.
  - intros [E|E]; rewrite E in H3; apply Nat.ltb_lt; auto.
Qed.

Definition lookup_safeb (us : list urule) : bool :=
  forallb (fun u => match r_op (u_rule u) with PUSH => negb (Nat.eqb (r_opl (u_rule u)) 0) || (0 <=? r_w (u_rule u))%Z | _ => true end) us.
Lemma lookup_safeb_ok : forall us, lookup_safeb us = true -> lookup_safe us.
Proof.
  intros us H u Hu E1 E2. unfold lookup_safeb in H. rewrite forallb_forall in H. specialize (H u Hu). rewrite E1, E2 in H. cbn in H.
  apply Z.leb_le; auto.
Qed.

Fixpoint nodupb (l : list edge) : bool :=
  match l with [] => true | e :: l' => negb (existsb (edge_eqb e) l') && nodupb l' end.
Lemma nodupb_ok : forall l, nodupb l = true -> NoDup l.
Proof.
  induction l as [|e l IH]; cbn; intros H; constructor; apply andb_true_iff in H; destruct H as [H1 H2]; auto.
  intros Hi. apply negb_true_iff in H1. assert (existsb (edge_eqb e) l = true); [|congruence].
  apply existsb_exists. exists e. split; auto. apply edge_eqb_eq; auto.
Qed.

(** An automaton given by a list of edges, with the identity as iteration order. *)
Definition mk_ex (acc : list bool) (es : list (nat * nat * nat)) : aut :=
  mk_aut acc (map (fun e => (mk_edge (fst (fst e)) (Some (snd (fst e))) (snd e), TNull)) es) (fun _ l => l).

Definition autb (n nlab : nat) (A : aut) : bool :=
  Nat.leb n (a_size A) && nodupb (map fst (a_edges A)) &&
  forallb (fun e => Nat.ltb (e_src e) (a_size A) && Nat.ltb (e_dst e) (a_size A) &&
                    match e_lab e with Some l => Nat.ltb l nlab | None => false end) (map fst (a_edges A)).
Definition no_inb (n : nat) (A : aut) : bool := forallb (fun e => Nat.leb n (e_dst e)) (map fst (a_edges A)).

Lemma autb_ok : forall P acc es, autb (pd_n P) (pd_nlab P) (mk_ex acc es) = true -> pre_ok P (mk_ex acc es).
Proof.
  intros P acc es H. set (A := mk_ex acc es) in *. unfold autb in H. apply andb_true_iff in H. destruct H as [H H3]. apply andb_true_iff in H. destruct H as [H1 H2].
  constructor.
  - apply Nat.leb_le; auto.
  - intros q l. apply Permutation_refl.
  - apply nodupb_ok; auto.
  - intros q l q' He. rewrite forallb_forall in H3. specialize (H3 _ He). cbn [e_src e_dst e_lab] in H3.
    apply andb_true_iff in H3. destruct H3 as [H3 H4]. apply andb_true_iff in H3. destruct H3 as [H5 H6].
    apply Nat.ltb_lt in H5, H6. destruct l; [|discriminate]. apply Nat.ltb_lt in H4. eauto.
Qed.
Lemma no_inb_ok : forall P A, no_inb (pd_n P) A = true -> no_in P A.
Proof. intros P A H q l q' He. unfold no_inb in H. rewrite forallb_forall in H. specialize (H _ He). apply Nat.leb_le; auto. Qed.
