(** Proofs for VerifyModel.v: the automata of query texts have no traces yet. *)
From Coq Require Import List Arith Lia Bool.
From Verif Require Import Base BaseFacts PdaModel AutModel NfaModel AtomModel ParserModel QTextModel.
Import ListNotations.

Definition untraced (A : aut) : Prop := forall e t, In (e, t) (a_edges A) -> t = TNull.

Lemma ofold_keep : forall (S A : Type) (f : S -> A -> option S) (Q : S -> Prop) l, (forall s a s', Q s -> f s a = Some s' -> Q s') -> forall s s', Q s -> ofold f l s = Some s' -> Q s'.
Proof.
  intros S A f Q l H. induction l as [|a l IH]; intros s s' HQ E; cbn in E; [injection E as <-; auto|].
  destruct (f s a) as [s1|] eqn:E1; [|discriminate]. cbn in E. eapply IH; [|exact E]. eapply H; eauto.
Qed.
Lemma find_edge_In : forall e l t, find_edge e l = Some t -> exists e', In (e', t) l.
Proof.
  induction l as [|[e' t'] l IH]; intros t H; cbn in H; [discriminate|]. destruct (edge_eqb e' e) eqn:E.
  - injection H as <-. exists e'. left. auto.
  - destruct (IH t H) as [e2 H2]. exists e2. right. auto.
Qed.
Lemma add_edge_untraced : forall A f l d A', untraced A -> a_add_edge A f l d TNull = Some A' -> untraced A'.
Proof.
  intros A f l d A' U E. unfold a_add_edge, emplace_edge in E. destruct (Nat.ltb _ _); [|discriminate]. destruct (find_edge _ _); injection E as <-; auto.
  intros e t [H|H]; [congruence|]. eapply U; eauto.
Qed.
Lemma add_edges_untraced : forall P A f d neg ls A', untraced A -> add_edges P A f d neg ls = Some A' -> untraced A'.
Proof.
  intros P A f d neg ls A' U E. unfold add_edges in E. destruct (neg && _); [discriminate|]. refine (ofold_keep _ _ _ untraced _ _ _ _ U E). intros s a s' Hs E'. eapply add_edge_untraced; eauto.
Qed.
Lemma add_edges_from_untraced : forall P A fs d neg ls A', untraced A -> add_edges_from P A fs d neg ls = Some A' -> untraced A'.
Proof.
  intros P A fs d neg ls A' U E. unfold add_edges_from in E. destruct (neg && _); [discriminate|]. destruct neg; refine (ofold_keep _ _ _ untraced _ _ _ _ U E); intros s a s' Hs E'; cbn beta in E';
    refine (ofold_keep _ _ _ untraced _ _ _ _ Hs E'); intros s2 a2 s2' Hs2 E2; eapply add_edge_untraced; eauto.
Qed.
Lemma get_id_aut : forall N c n c' i, get_id N c n = Some (c', i) -> a_edges (co_aut c') = a_edges (co_aut c).
Proof.
  intros N c n c' i E. unfold get_id in E. destruct (co_find n (co_map c)); [injection E as <- <-; auto|]. destruct (nth_error _ _); [|discriminate]. cbn in E. injection E as <- <-. reflexivity.
Qed.
Lemma co_edge_untraced : forall addr N add c e c', (forall A d e A', untraced A -> add A d e = Some A' -> untraced A') -> untraced (co_aut c) -> co_edge addr N add c e = Some c' -> untraced (co_aut c').
Proof.
  intros addr N add c e c' Ha U E. unfold co_edge in E. destruct (follow_epsilon _ _ _) as [ns|]; [|discriminate]. cbn [obind] in E.
  apply (ofold_keep _ _ _ (fun c => untraced (co_aut c)) ns) with (s := c) (s' := c') in E; auto. intros s a s' Hs E'. destruct (get_id N s a) as [[c1 i]|] eqn:E1; [|discriminate]. cbn [obind fst snd] in E'.
  destruct (add (co_aut c1) i e) as [A'|] eqn:E2; [|discriminate]. injection E' as <-. cbn. eapply Ha; [|exact E2]. intros e0 t0 H. rewrite (get_id_aut _ _ _ _ _ E1) in H. eapply Hs; eauto.
Qed.
Lemma aut_of_nfa_untraced : forall addr P ord N me states A, aut_of_nfa addr P ord N me states = Some A -> untraced A.
Proof.
  intros addr P ord N me states A E. unfold aut_of_nfa in E. destruct (empty_accept addr N) as [b|]; [|discriminate]. cbn [obind] in E.
  destruct (aut_special P ord states b) as [A0|] eqn:E0; [|discriminate]. cbn [obind] in E.
  assert (U0: untraced A0). { unfold aut_special in E0. destruct (is_sorted _ _); [|discriminate]. injection E0 as <-. intros e t []. }
  unfold construct in E. destruct (co_initial addr P N me states _) as [c1|] eqn:E1; [|discriminate]. cbn [obind] in E. destruct (co_loop addr P N me _ c1) as [c2|] eqn:E2; [|discriminate]. injection E as <-.
  assert (U1: untraced (co_aut c1)).
  { unfold co_initial in E1. apply (ofold_keep _ _ _ (fun c => untraced (co_aut c)) (n_init N)) with (s := mk_cons A0 [] []) (s' := c1) in E1; auto. intros s a s' Hs E'. destruct (nth_error _ _) as [st|]; [|discriminate]. cbn [obind] in E'.
    apply (ofold_keep _ _ _ (fun c => untraced (co_aut c)) (ns_edges st)) with (s := s) (s' := s') in E'; auto. intros s2 a2 s2' Hs2 E''. eapply co_edge_untraced; [|exact Hs2|exact E'']. intros A d e A' U. cbn beta. apply add_edges_from_untraced; auto. }
  clear E1 E0 U0. revert c1 E2 U1. generalize (length (n_states N)). induction n as [|n IH]; intros c1 E2 U1; cbn in E2; destruct (co_wait c1) as [|[top id] w]; try discriminate; try (injection E2 as <-; auto).
  destruct (nth_error _ _) as [st|]; [|discriminate]. cbn [obind] in E2. destruct (ofold _ (ns_edges st) _) as [c'|] eqn:E3; [|discriminate]. cbn [obind] in E2. eapply IH; [exact E2|].
  eapply (ofold_keep _ _ _ (fun c => untraced (co_aut c)) (ns_edges st)) in E3; auto. intros s2 a2 s2' Hs2 E''. eapply co_edge_untraced; [|exact Hs2|exact E'']. intros A d e A' U. cbn beta. apply add_edges_untraced; auto.
Qed.
Lemma or_extend_untraced : forall n A B C, untraced A -> untraced B -> a_or_extend n A B = Some C -> untraced C.
Proof.
  intros n A B C UA UB E. unfold a_or_extend in E. destruct (_ && _); [|discriminate]. refine (ofold_keep _ _ _ untraced _ _ _ _ UA E). intros s i s' Hs E'. unfold oe_state in E'.
  destruct (nth_error (a_acc B) i) as [acc|]; [|discriminate]. cbn [obind] in E'.
  match type of E' with obind ?p _ = _ => destruct p as [[A1 k]|] eqn:Ep; [|discriminate] end. cbn [obind fst snd] in E'.
  assert (U1: untraced A1).
  { destruct (Nat.leb n i); [injection Ep as <- <-; exact Hs|]. destruct (nth_error (a_acc s) i) as [a0|]; [|discriminate]. cbn [obind] in Ep. injection Ep as <- <-. destruct (negb a0 && acc); exact Hs. }
  refine (ofold_keep _ _ _ untraced _ _ _ _ U1 E'). intros s2 d s2' Hs2 E2. cbn beta in E2. refine (ofold_keep _ _ _ untraced _ _ _ _ Hs2 E2). intros s3 l s3' Hs3 E3. cbn beta in E3.
  destruct (find_edge _ _) as [t|] eqn:EF; [|discriminate]. cbn [obind] in E3. apply find_edge_In in EF. destruct EF as [e' EF]. apply UB in EF. subst t. eapply add_edge_untraced; eauto.
Qed.
Theorem parse_query_untraced : forall addr ord P sl tab s A tab', parse_query addr ord P sl tab s = Some (QGo (A, tab')) -> untraced A.
Proof.
  intros addr ord P sl tab s A tab' E. unfold parse_query in E. destruct (p_query s) as [rest acts| |]; try discriminate.
  set (ok := fun st : qst => match q_cur st with Some A => untraced A | None => True end).
  assert (G: forall acts st st', ok st -> do_qacts addr ord P sl acts st = Some (QGo st') -> ok st').
  { clear. induction acts as [|a acts IH]; intros st st' H E; cbn in E; [injection E as <-; auto|]. destruct (do_qact addr ord P sl st a) as [r|] eqn:Ea; [|discriminate]. cbn [obind] in E. destruct r as [st1|]; [|discriminate]. eapply IH; [|exact E]. clear E IH.
    destruct a as [s|s|acts'|]; cbn in Ea.
    - destruct (sl s); try discriminate; injection Ea as <-; exact H.
    - destruct (sl s); try discriminate; injection Ea as <-; exact H.
    - destruct (ofold _ _ _) as [tb|]; [|discriminate]. cbn [obind] in Ea. destruct (get_nfa _) as [N|]; [|discriminate]. injection Ea as <-. exact H.
    - unfold finish_atom in Ea. cbn [at_nfa at_nlab at_states] in Ea. destruct (nfa_compile _ _) as [N|]; [|discriminate]. cbn [obind] in Ea.
      destruct (aut_of_nfa _ _ _ _ _ _) as [B|] eqn:EB; [|discriminate]. cbn [obind] in Ea. apply aut_of_nfa_untraced in EB. unfold ok in *. destruct (q_cur st) as [A|].
      + destruct (a_or_extend (pd_n P) A B) as [C|] eqn:EC; [|discriminate]. cbn [obind] in Ea. injection Ea as <-. cbn. exact (or_extend_untraced _ _ _ _ H EB EC).
      + cbn [obind] in Ea. injection Ea as <-. exact EB. }
  destruct (do_qacts addr ord P sl acts _) as [r|] eqn:Eq; [|discriminate]. cbn [obind] in E. destruct r as [st|]; [|discriminate]. destruct (q_cur st) as [A0|] eqn:EA; [|discriminate]. cbn [obind] in E. injection E as <- <-.
  assert (K: ok st) by (eapply G; [|exact Eq]; exact I). unfold ok in K. rewrite EA in K. exact K.
Qed.
