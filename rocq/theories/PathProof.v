(** AutomatonPath is a path: a non-empty list of states and the labels between them. *)
From Coq Require Import List Arith Lia Bool.
From Verif Require Import Base BaseFacts Spec AutModel QueryModel PathModel QueryProof.
Import ListNotations.

(** States and labels of a path, front first. *)
Definition vp_states {S} (p : vpath S) : list S := map snd (rev (vp_edges p)) ++ [vp_end p].
Definition vp_labels {S} (p : vpath S) : list (option nat) := map fst (rev (vp_edges p)).
Definition ap_states {S} (p : apth S) : list S := map snd (ap_edges p) ++ [ap_end p].

Lemma vback_rev : forall A (l : list A), vback l = hd_error (rev l).
Proof.
  intros A l. unfold vback. induction l as [|x l IH] using rev_ind; auto. rewrite rev_unit, app_length. cbn.
  replace (length l + 1 - 1) with (length l) by lia. rewrite nth_error_app2, Nat.sub_diag by auto. auto.
Qed.
Lemma vpop_back_snoc : forall A (l : list A) x, vpop_back (l ++ [x]) = Some l.
Proof.
  intros. unfold vpop_back. destruct (l ++ [x]) eqn:E. { apply (f_equal (@length A)) in E. rewrite app_length in E. cbn in E. lia. }
  rewrite <- E, app_length. cbn. replace (length l + 1 - 1) with (length l) by lia. rewrite firstn_app, Nat.sub_diag, firstn_all. cbn. rewrite app_nil_r. auto.
Qed.

Lemma vp_fill_spec : forall S (ls : list (option nat)) (qs : list S) acc, length ls = length qs -> vp_fill ls qs acc = Some (acc ++ combine ls qs).
Proof.
  induction ls as [|l ls IH]; intros [|q qs] acc H; cbn in *; try discriminate.
  - rewrite app_nil_r; auto.
  - rewrite IH by lia. rewrite <- app_assoc. auto.
Qed.

Lemma combine_app' : forall A B (a a' : list A) (b b' : list B), length a = length b -> combine (a ++ a') (b ++ b') = combine a b ++ combine a' b'.
Proof. induction a as [|x a IH]; intros a' [|y b] b' H; cbn in *; try discriminate; auto. rewrite IH by lia. auto. Qed.
Lemma combine_rev : forall A B (a : list A) (b : list B), length a = length b -> combine (rev a) (rev b) = rev (combine a b).
Proof.
  induction a as [|x a IH]; intros [|y b] H; cbn in *; try discriminate; auto. rewrite combine_app' by (rewrite !rev_length; lia). rewrite IH by lia. auto.
Qed.
Lemma map_fst_combine : forall A B (a : list A) (b : list B), length a = length b -> map fst (combine a b) = a.
Proof. induction a as [|x a IH]; intros [|y b] H; cbn in *; try discriminate; auto. f_equal; auto. Qed.
Lemma map_snd_combine : forall A B (a : list A) (b : list B), length a = length b -> map snd (combine a b) = b.
Proof. induction a as [|x a IH]; intros [|y b] H; cbn in *; try discriminate; auto. f_equal; auto. Qed.

Lemma vp_make_spec : forall S (qs : list S) ls, length qs = length ls + 1 ->
  exists p, vp_make qs ls = Some p /\ vp_states p = qs /\ vp_labels p = ls.
Proof.
  intros S qs ls H. destruct (rev qs) as [|e qr] eqn:E.
  { apply (f_equal (@length S)) in E. rewrite rev_length in E. cbn in E. lia. }
  assert (Eq: qs = rev qr ++ [e]) by (rewrite <- (rev_involutive qs), E; auto). assert (L: length ls = length qr).
  { apply (f_equal (@length S)) in E. rewrite rev_length in E. cbn in E. lia. }
  unfold vp_make. rewrite vback_rev, E. cbn [hd_error obind tl]. apply Nat.eqb_eq in H as ->. rewrite vp_fill_spec by (rewrite rev_length; auto).
  cbn [app obind]. eexists; split; [reflexivity|]. unfold vp_states, vp_labels. cbn [vp_edges vp_end].
  rewrite <- combine_rev by (rewrite rev_length; auto). rewrite rev_involutive, map_snd_combine, map_fst_combine by (rewrite rev_length; auto). auto.
Qed.

Lemma vp_emplace_spec : forall S (p : vpath S) f l, vp_states (vp_emplace p f l) = f :: vp_states p /\ vp_labels (vp_emplace p f l) = l :: vp_labels p.
Proof. intros. unfold vp_states, vp_labels, vp_emplace. cbn. rewrite rev_unit. auto. Qed.

Lemma vp_cases : forall S (p : vpath S), vp_edges p = [] \/ exists p' f l, p = vp_emplace p' f l.
Proof.
  intros S [e es]. destruct es as [|x es _] using rev_ind; auto. right. exists (mk_vpath e es), (snd x), (fst x). unfold vp_emplace. cbn. rewrite <- surjective_pairing. auto.
Qed.

Lemma vp_pop_emplace : forall S (p : vpath S) f l, vp_pop (vp_emplace p f l) = Some p.
Proof. intros S [e es] f l. unfold vp_pop, vp_emplace. cbn. rewrite vpop_back_snoc. auto. Qed.

Lemma vp_front_spec : forall S (p : vpath S), hd_error (vp_states p) = Some (vp_front p).
Proof.
  intros S p. destruct (vp_cases S p) as [E|[p' [f [l ->]]]].
  - unfold vp_states, vp_front. rewrite E. auto.
  - unfold vp_front, vp_states. rewrite vback_rev. unfold vp_emplace. cbn. rewrite rev_unit. auto.
Qed.

Lemma vp_front_edge_emplace : forall S (p : vpath S) f l, vp_front_edge (vp_emplace p f l) = Some (f, l, vp_front p).
Proof.
  intros S [e es] f l. unfold vp_front_edge, vp_front. rewrite !vback_rev. unfold vp_emplace. cbn [vp_edges vp_end]. rewrite rev_unit. cbn [hd_error obind fst snd].
  rewrite app_length. cbn [length]. destruct es as [|x es _] using rev_ind; [reflexivity|]. rewrite rev_unit, app_length. cbn [length hd_error].
  destruct (Nat.ltb_spec 1 (length es + 1 + 1)); [|lia]. replace (length es + 1 + 1 - 2) with (length es) by lia.
  rewrite <- app_assoc, nth_error_app2, Nat.sub_diag by auto. reflexivity.
Qed.

Lemma vp_stack_spec : forall S (p : vpath S), vp_stack p = vp_labels p.
Proof.
  intros. unfold vp_stack, vp_labels. assert (G: forall (l : list (option nat * S)) acc, fold_left (fun st e => st ++ [fst e]) l acc = acc ++ map fst l).
  { induction l as [|x l IH]; intros acc; cbn; [rewrite app_nil_r; auto|]. rewrite IH, <- app_assoc. auto. }
  rewrite G. auto.
Qed.

(** States at which a labelled edge starts. *)
Definition keep_states {S} (qs : list S) (ls : list (option nat)) : list S :=
  flat_map (fun x : option nat * S => match fst x with Some _ => [snd x] | None => [] end) (combine ls qs).

Lemma vp_path_and_stack_spec : forall S (p : vpath S),
  vp_path_and_stack p = (keep_states (removelast (vp_states p)) (vp_labels p) ++ [vp_end p], word (vp_labels p)).
Proof.
  intros S p. unfold vp_path_and_stack.
  assert (G: forall (l : list (option nat * S)) a b,
    fold_left (fun (ps : list S * list nat) (e : option nat * S) => match fst e with Some l => (fst ps ++ [snd e], snd ps ++ [l]) | None => ps end) l (a, b) =
    (a ++ keep_states (map snd l) (map fst l), b ++ word (map fst l))).
  { induction l as [|[[x|] s] l IH]; intros a b; cbn; [rewrite !app_nil_r; auto| |].
    - rewrite IH. unfold keep_states. cbn. rewrite <- !app_assoc. auto.
    - rewrite IH. auto. }
  rewrite G. cbn [fst snd app]. unfold vp_states, vp_labels. rewrite removelast_last. auto.
Qed.

Lemma vp_split_spec : forall p, vp_states (fst (vp_split p)) = map fst (vp_states p) /\ vp_labels (fst (vp_split p)) = vp_labels p /\
  vp_states (snd (vp_split p)) = map snd (vp_states p) /\ vp_labels (snd (vp_split p)) = vp_labels p.
Proof.
  intros [e es]. unfold vp_split. cbn [vp_edges vp_end]. induction es as [|x es IH] using rev_ind; [repeat split; auto|].
  rewrite fold_left_app. cbn [fold_left fst snd]. destruct IH as [I1 [I2 [I3 I4]]].
  change (mk_vpath e (es ++ [x])) with (vp_emplace (mk_vpath e es) (snd x) (fst x)) || replace (mk_vpath e (es ++ [x])) with (vp_emplace (mk_vpath e es) (snd x) (fst x)) by (unfold vp_emplace; cbn; rewrite <- surjective_pairing; auto).
  rewrite !(proj1 (vp_emplace_spec _ _ _ _)), !(proj2 (vp_emplace_spec _ _ _ _)), I1, I2, I3, I4. auto.
Qed.

Lemma vp_ext : forall S (p p' : vpath S), vp_states p = vp_states p' -> vp_labels p = vp_labels p' -> p = p'.
Proof.
  intros S [e es] [e' es'] H1 H2. unfold vp_states, vp_labels in *. cbn in *. apply app_inj_tail in H1. destruct H1 as [H1 ->]. f_equal.
  rewrite <- (rev_involutive es), <- (rev_involutive es'). f_equal.
  revert H1 H2. generalize (rev es) (rev es'). induction l as [|[a b] l IH]; intros [|[c d] l'] H1 H2; cbn in *; try discriminate; auto.
  inversion H1; inversion H2; subst. f_equal. auto.
Qed.

(** The layout used by QueryModel. *)
Definition flip {S} (p : vpath S) : apth S := mk_apth (vp_end p) (rev (vp_edges p)).

Lemma flip_emplace : forall S (p : vpath S) f l, flip (vp_emplace p f l) = ap_emplace (flip p) f l.
Proof. intros. unfold flip, vp_emplace, ap_emplace. cbn. rewrite rev_unit. auto. Qed.
Lemma flip_states : forall S (p : vpath S), ap_states (flip p) = vp_states p.
Proof. reflexivity. Qed.
Lemma flip_stack : forall S (p : vpath S), ap_stack (flip p) = vp_labels p.
Proof. reflexivity. Qed.
Lemma flip_front : forall S (p : vpath S), ap_front (flip p) = vp_front p.
Proof.
  intros S p. unfold vp_front, ap_front. rewrite vback_rev. cbn. destruct (rev (vp_edges p)) as [|[l s] es]; auto.
Qed.
Lemma flip_pop : forall S (p : vpath S), ap_pop (flip p) = option_map flip (vp_pop p).
Proof.
  intros S p. destruct (vp_cases S p) as [E|[p' [f [l ->]]]].
  - unfold ap_pop, vp_pop, flip. cbn. rewrite E. reflexivity.
  - rewrite flip_emplace, vp_pop_emplace. destruct p'; reflexivity.
Qed.
Lemma flip_front_edge : forall S (p : vpath S), ap_front_edge (flip p) = vp_front_edge p.
Proof.
  intros S p. destruct (vp_cases S p) as [E|[p' [f [l ->]]]].
  - unfold ap_front_edge, vp_front_edge, flip. cbn. rewrite E. reflexivity.
  - rewrite flip_emplace, vp_front_edge_emplace, <- flip_front. destruct p' as [e es]. unfold ap_emplace, ap_front_edge, ap_front, flip. cbn.
    destruct (rev es) as [|[? ?] ?]; auto.
Qed.
Lemma flip_make : forall S (qs : list S) ls, length qs = length ls + 1 -> ap_make qs ls = option_map flip (vp_make qs ls).
Proof.
  intros S qs ls H. destruct (vp_make_spec S qs ls H) as [p [E1 [E2 E3]]]. rewrite E1. cbn.
  rewrite (ap_make_spec _ _ (vp_end p)) by lia. rewrite <- E2 at 1. unfold vp_states at 1. rewrite last_last. f_equal. unfold flip. f_equal.
  rewrite <- E2, <- E3. unfold vp_states, vp_labels. generalize (rev (vp_edges p)). induction l as [|[a b] l IH]; cbn; auto. rewrite IH. auto.
Qed.
Lemma flip_path_and_stack : forall S (p : vpath S), ap_path_and_stack (flip p) = vp_path_and_stack p.
Proof.
  intros S p. rewrite vp_path_and_stack_spec. unfold ap_path_and_stack, vp_states, vp_labels, keep_states, word, flip. cbn. rewrite removelast_last.
  f_equal.
  - f_equal. generalize (rev (vp_edges p)). induction l as [|[[a|] b] l IH]; cbn; auto; rewrite IH; auto.
  - generalize (rev (vp_edges p)). induction l as [|[[a|] b] l IH]; cbn; auto; rewrite IH; auto.
Qed.
Lemma flip_split : forall p, ap_split (flip p) = (flip (fst (vp_split p)), flip (snd (vp_split p))).
Proof.
  intros [e es]. unfold ap_split, vp_split, flip at 1 2 3. cbn [ap_edges ap_end vp_edges vp_end]. rewrite rev_involutive.
  change (mk_apth (fst e) []) with (flip (vp_single (fst e))). change (mk_apth (snd e) []) with (flip (vp_single (snd e))).
  generalize (vp_single (fst e)) (vp_single (snd e)). induction es as [|x es IH]; intros a b; cbn [fold_left fst snd]; auto.
  rewrite <- !flip_emplace. rewrite IH. auto.
Qed.
Lemma flip_remove_epsilon : forall p, ap_remove_epsilon (flip p) = option_map flip (vp_remove_epsilon p).
Proof.
  intros p. unfold ap_remove_epsilon, vp_remove_epsilon. rewrite flip_front_edge, flip_pop. destruct (vp_cases _ p) as [E|[p' [f [l ->]]]].
  - unfold vp_empty, vp_front_edge. rewrite E. reflexivity.
  - assert (Ee: vp_empty (vp_emplace p' f l) = false) by (unfold vp_empty, vp_emplace; cbn; destruct (vp_edges p'); auto).
    rewrite Ee, vp_front_edge_emplace. cbn [obind]. destruct l; auto. destruct (Nat.eqb f (vp_front p')); auto.
Qed.

Lemma make_states : forall S (qs : list S) ls d, length qs = 1 + length ls ->
  ap_states (mk_apth (last qs d) (combine ls qs)) = qs /\ ap_stack (mk_apth (last qs d) (combine ls qs)) = ls.
Proof.
  intros S qs ls d H. destruct (vp_make_spec S qs ls) as [p [E1 [E2 E3]]]; [lia|].
  assert (K := flip_make _ _ _ (eq_trans H (Nat.add_comm _ _))). rewrite E1, (ap_make_spec _ _ d) in K by auto. cbn [option_map] in K.
  assert (K': mk_apth (last qs d) (combine ls qs) = flip p) by congruence. rewrite K'.
  rewrite flip_states, flip_stack. auto.
Qed.
