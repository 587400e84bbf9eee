(** The regular-expression operations on NFAs. *)
From Coq Require Import List Arith Lia Bool Sorted Permutation.
From Verif Require Import Base BaseFacts Spec SpecFacts RegexSpec PdaModel PdaProof AutModel NfaModel.
Import ListNotations.

(** Pointers lead to states of the NFA, the vector of accepting states lists the states with the flag, symbols are sorted. *)
Record nfa_wf (N : nfa) : Prop := {
  nw_dst : forall q st e, nth_error (n_states N) q = Some st -> In e (ns_edges st) -> ne_dst e < length (n_states N) /\ ssorted (ne_sym e);
  nw_init : forall i, In i (n_init N) -> i < length (n_states N);
  nw_accs : forall q, In q (n_accs N) <-> sts_acc (n_states N) q }.

Definition nE (N : nfa) : edgeset := sts_edges (n_states N).
Definition nF (N : nfa) : nat -> Prop := sts_acc (n_states N).

Lemma sts_edges_lt : forall sts q l q', sts_edges sts q l q' -> q < length sts.
Proof. intros sts q l q' [st [e [H _]]]. eapply nth_error_lt; eauto. Qed.
Lemma nE_dst : forall N q l q', nfa_wf N -> nE N q l q' -> q < length (n_states N) /\ q' < length (n_states N).
Proof. intros N q l q' W H. split; [eapply sts_edges_lt; eauto|]. destruct H as [st [e [H1 [H2 [<- _]]]]]. eapply nw_dst; eauto. Qed.
Lemma nF_lt : forall N q, nF N q -> q < length (n_states N).
Proof. intros N q [st [H _]]. eapply nth_error_lt; eauto. Qed.
Lemma nE_path_lt : forall N q w q', nfa_wf N -> apath (nE N) q w q' -> q < length (n_states N) -> q' < length (n_states N).
Proof. intros N q w q' W H. induction H; auto; intros; apply IHapath; eapply nE_dst; eauto. Qed.

(** ** st_mod *)
Lemma st_mod_length : forall sts i f, length (st_mod sts i f) = length sts.
Proof. intros. unfold st_mod. destruct (nth_error sts i); auto. apply upd_length. Qed.
Lemma st_mod_eq : forall sts i f s, nth_error sts i = Some s -> nth_error (st_mod sts i f) i = Some (f s).
Proof. intros. unfold st_mod. rewrite H. apply nth_error_upd_eq. eapply nth_error_lt; eauto. Qed.
Lemma st_mod_neq : forall sts i j f, i <> j -> nth_error (st_mod sts i f) j = nth_error sts j.
Proof. intros. unfold st_mod. destruct (nth_error sts i); auto. apply nth_error_upd_neq; auto. Qed.

Lemma iter_swap : forall A (f : A -> A) k x, Nat.iter k f (f x) = f (Nat.iter k f x).
Proof. intros A f k x. induction k as [|k IH]; cbn; auto. f_equal. exact IH. Qed.

(** A loop of changes: [R s s'] relates the states before and after. *)
Lemma st_mod_loop : forall (f : nstate -> nstate) l sts,
  length (fold_left (fun sts i => st_mod sts i f) l sts) = length sts /\
  forall i s, nth_error sts i = Some s ->
    exists k, nth_error (fold_left (fun sts i => st_mod sts i f) l sts) i = Some (Nat.iter k f s) /\ (k = 0 <-> ~ In i l).
Proof.
  intros f l. induction l as [|a l IH]; intros sts; cbn [fold_left].
  - split; auto. intros i s H. exists 0. cbn. tauto.
  - destruct (IH (st_mod sts a f)) as [IL IH']. split; [rewrite IL; apply st_mod_length|].
    intros i s H. destruct (Nat.eq_dec a i) as [->|Hn].
    + destruct (IH' i (f s)) as [k [H1 H2]]; [apply st_mod_eq; auto|]. exists (Datatypes.S k). rewrite H1. split.
      * rewrite iter_swap. auto.
      * split; [discriminate|]. intros K. destruct K. left; auto.
    + destruct (IH' i s) as [k [H1 H2]]; [rewrite st_mod_neq; auto|]. exists k. split; auto. rewrite H2. cbn. tauto.
Qed.

(** ** concat *)
Definition cat_mod (is : list nat) (s : nstate) : nstate := mk_nstate (ns_edges s ++ map eps_edge is) false.
Lemma cat_mod_iter : forall is k s, k <> 0 ->
  ns_acc (Nat.iter k (cat_mod is) s) = false /\ (forall e, In e (ns_edges (Nat.iter k (cat_mod is) s)) <-> In e (ns_edges s) \/ In e (map eps_edge is)).
Proof.
  intros is k s. induction k as [|[|k] IH]; intros Hk; [congruence| |].
  - cbn. split; auto. intros e. apply in_app_iff.
  - destruct IH as [I1 I2]; auto. change (Nat.iter (Datatypes.S (Datatypes.S k)) (cat_mod is) s) with (cat_mod is (Nat.iter (Datatypes.S k) (cat_mod is) s)).
    cbn [cat_mod ns_acc ns_edges]. split; auto. intros e. rewrite in_app_iff, I2. tauto.
Qed.

Lemma shift_edges : forall k N q l q', sts_edges (map (shift_state k) (n_states N)) q l q' <-> exists p', q' = k + p' /\ nE N q l p'.
Proof.
  intros k N q l q'. split.
  - intros [st [e [H1 [H2 [H3 H4]]]]]. rewrite nth_error_map in H1. destruct (nth_error (n_states N) q) as [s|] eqn:E; cbn in H1; [|discriminate].
    injection H1 as <-. cbn in H2. apply in_map_iff in H2. destruct H2 as [e0 [<- He]]. cbn in H3. exists (ne_dst e0). split; auto.
    exists s, e0. auto.
  - intros [p' [-> [st [e [H1 [H2 [H3 H4]]]]]]]. exists (shift_state k st), (shift_edge k e). rewrite nth_error_map, H1. cbn. ands; auto.
    apply in_map; auto.
Qed.
Lemma shift_acc : forall k N q, sts_acc (map (shift_state k) (n_states N)) q <-> nF N q.
Proof.
  intros. unfold nF, sts_acc. rewrite nth_error_map. split.
  - intros [st [H1 H2]]. destruct (nth_error (n_states N) q) as [s|]; cbn in H1; [|discriminate]. injection H1 as <-. exists s; auto.
  - intros [st [H1 H2]]. rewrite H1. exists (shift_state k st). auto.
Qed.

(** The graph of two NFAs side by side, with epsilon edges from [A] to the shifted [I]. *)
Definition two (k : nat) (E1 E2 : edgeset) (X : nat -> nat -> Prop) : edgeset := fun q l q' =>
  (q < k /\ (E1 q l q' \/ (l = None /\ exists i, X q i /\ q' = k + i))) \/ (exists p p', q = k + p /\ q' = k + p' /\ E2 p l p').

Lemma app_edges : forall (a b : list nstate) q l q', sts_edges (a ++ b) q l q' <-> sts_edges a q l q' \/ exists p, q = length a + p /\ sts_edges b p l q'.
Proof.
  intros a b q l q'. split.
  - intros [st [e [H1 H2]]]. destruct (Nat.lt_ge_cases q (length a)).
    + left. exists st, e. rewrite nth_error_app1 in H1; auto.
    + right. exists (q - length a). split; [lia|]. exists st, e. rewrite nth_error_app2 in H1; auto.
  - intros [[st [e [H1 H2]]]|[p [-> [st [e [H1 H2]]]]]].
    + exists st, e. split; auto. apply nth_error_app1_some; auto.
    + exists st, e. split; auto. rewrite nth_error_app2; [|lia]. replace (length a + p - length a) with p by lia. auto.
Qed.
Lemma app_acc : forall (a b : list nstate) q, sts_acc (a ++ b) q <-> sts_acc a q \/ exists p, q = length a + p /\ sts_acc b p.
Proof.
  intros a b q. split.
  - intros [st [H1 H2]]. destruct (Nat.lt_ge_cases q (length a)).
    + left. exists st. rewrite nth_error_app1 in H1; auto.
    + right. exists (q - length a). split; [lia|]. exists st. rewrite nth_error_app2 in H1; auto.
  - intros [[st [H1 H2]]|[p [-> [st [H1 H2]]]]].
    + exists st. split; auto. apply nth_error_app1_some; auto.
    + exists st. split; auto. rewrite nth_error_app2; [|lia]. replace (length a + p - length a) with p by lia. auto.
Qed.

Lemma concat_states : forall a b i s, nth_error (n_states a ++ map (shift_state (length (n_states a))) (n_states b)) i = Some s ->
  exists s', nth_error (n_states (nfa_concat a b)) i = Some s' /\
    (In i (n_accs a) -> ns_acc s' = false /\ forall e, In e (ns_edges s') <-> In e (ns_edges s) \/ In e (map eps_edge (map (Nat.add (length (n_states a))) (n_init b)))) /\
    (~ In i (n_accs a) -> s' = s).
Proof.
  intros a b i s H. destruct (st_mod_loop (cat_mod (map (Nat.add (length (n_states a))) (n_init b))) (n_accs a)
    (n_states a ++ map (shift_state (length (n_states a))) (n_states b))) as [_ K].
  destruct (K i s H) as [k [H1 H2]]. eexists. split; [exact H1|]. split.
  - intros Hi. apply cat_mod_iter. intros E. apply H2 in E. auto.
  - intros Hi. apply H2 in Hi. subst. auto.
Qed.
Lemma concat_length : forall a b, length (n_states (nfa_concat a b)) = length (n_states a) + length (n_states b).
Proof.
  intros. unfold nfa_concat. cbn. rewrite (proj1 (st_mod_loop (cat_mod (map (Nat.add (length (n_states a))) (n_init b))) (n_accs a) _)).
  rewrite app_length, map_length. auto.
Qed.
Lemma concat_states_inv : forall a b i s', nth_error (n_states (nfa_concat a b)) i = Some s' ->
  exists s, nth_error (n_states a ++ map (shift_state (length (n_states a))) (n_states b)) i = Some s /\
    (In i (n_accs a) -> ns_acc s' = false /\ forall e, In e (ns_edges s') <-> In e (ns_edges s) \/ In e (map eps_edge (map (Nat.add (length (n_states a))) (n_init b)))) /\
    (~ In i (n_accs a) -> s' = s).
Proof.
  intros a b i s' H. assert (L := nth_error_lt _ _ _ _ H). rewrite concat_length in L.
  destruct (nth_error_ex _ (n_states a ++ map (shift_state (length (n_states a))) (n_states b)) i) as [s Hs]; [rewrite app_length, map_length; lia|].
  exists s. split; auto. destruct (concat_states a b i s Hs) as [s0 [E0 K]]. assert (s0 = s') by congruence. subst. exact K.
Qed.

Lemma eps_edge_In : forall e l, In e (map eps_edge l) <-> exists i, In i l /\ e = eps_edge i.
Proof. intros. rewrite in_map_iff. split; intros [x [H1 H2]]; exists x; split; auto; congruence. Qed.

Lemma accs_lt : forall N q, nfa_wf N -> In q (n_accs N) -> q < length (n_states N).
Proof. intros N q W H. apply (nw_accs _ W) in H. apply nF_lt; auto. Qed.

Lemma concat_edges : forall a b, nfa_wf a -> nfa_wf b -> forall q l q', nE (nfa_concat a b) q l q' <->
  two (length (n_states a)) (nE a) (nE b) (fun q i => In q (n_accs a) /\ In i (n_init b)) q l q'.
Proof.
  intros a b Wa Wb q l q'. set (k := length (n_states a)).
  assert (B: sts_edges (n_states a ++ map (shift_state k) (n_states b)) q l q' <-> two k (nE a) (nE b) (fun _ _ => False) q l q').
  { rewrite app_edges. unfold two. split.
    - intros [H|[p [-> H]]].
      + left. split; [eapply sts_edges_lt; eauto|]. left; auto.
      + apply shift_edges in H. destruct H as [p' [-> H]]. right. exists p, p'. auto.
    - intros [[H1 [H2|[_ [i [[] _]]]]]|[p [p' [-> [-> H]]]]]; [left; auto|]. right. exists p. split; auto. apply shift_edges. eauto. }
  assert (T: two k (nE a) (nE b) (fun q i => In q (n_accs a) /\ In i (n_init b)) q l q' <->
             two k (nE a) (nE b) (fun _ _ => False) q l q' \/ (l = None /\ In q (n_accs a) /\ exists i, In i (n_init b) /\ q' = k + i)).
  { unfold two. split.
    - intros [[H1 [H2|[-> [i [[H2 H3] ->]]]]]|H]; eauto 10.
    - intros [[[H1 [H2|[_ [i [[] _]]]]]|H]|[-> [H [i [Hi ->]]]]]; eauto 10. left. split; [apply accs_lt; auto|]. right. split; auto. exists i. auto. }
  rewrite T, <- B. split.
  - intros [s' [e [H1 [H2 [H3 H4]]]]]. destruct (concat_states_inv _ _ _ _ H1) as [s [Hs [K1 K2]]].
    destruct (in_dec Nat.eq_dec q (n_accs a)) as [Hq|Hq].
    + destruct (K1 Hq) as [_ K]. apply K in H2. destruct H2 as [H2|H2].
      * left. exists s, e. auto.
      * right. apply eps_edge_In in H2. destruct H2 as [i [Hi ->]]. apply in_map_iff in Hi. destruct Hi as [i0 [<- Hi]].
        destruct l as [x|]; [cbn in H4; unfold sym_ok in H4; cbn in H4; tauto|]. ands; auto. exists i0; auto.
    + rewrite (K2 Hq) in *. left. exists s, e. auto.
  - intros [[s [e [H1 [H2 [H3 H4]]]]]|[-> [Hq [i [Hi ->]]]]].
    + destruct (concat_states a b _ _ H1) as [s' [E' [K1 K2]]]. exists s', e. ands; auto.
      destruct (in_dec Nat.eq_dec q (n_accs a)) as [Hq|Hq]; [apply (K1 Hq); auto|rewrite (K2 Hq); auto].
    + assert (Hl := accs_lt _ _ Wa Hq). destruct (nth_error_ex _ (n_states a ++ map (shift_state k) (n_states b)) q) as [s Hs]; [rewrite app_length; lia|].
      destruct (concat_states a b _ _ Hs) as [s' [E' [K1 K2]]]. exists s', (eps_edge (k + i)). ands; auto. apply (K1 Hq). right. apply in_map. apply in_map; auto.
Qed.
Lemma concat_acc : forall a b, nfa_wf a -> nfa_wf b -> forall q, nF (nfa_concat a b) q <-> exists p, q = length (n_states a) + p /\ nF b p.
Proof.
  intros a b Wa Wb q. split.
  - intros [s' [H1 H2]]. destruct (concat_states_inv _ _ _ _ H1) as [s [Hs [K1 K2]]].
    destruct (in_dec Nat.eq_dec q (n_accs a)) as [Hq|Hq]; [destruct (K1 Hq); congruence|].
    rewrite (K2 Hq) in *. assert (X: sts_acc (n_states a ++ map (shift_state (length (n_states a))) (n_states b)) q) by (exists s; auto).
    apply app_acc in X. destruct X as [X|[p [-> X]]]; [exfalso; apply Hq; apply (nw_accs _ Wa); auto|].
    exists p. split; auto. apply shift_acc in X; auto.
  - intros [p [-> H]]. apply (shift_acc (length (n_states a))) in H. assert (X: sts_acc (n_states a ++ map (shift_state (length (n_states a))) (n_states b)) (length (n_states a) + p)).
    { apply app_acc. right. eauto. }
    destruct X as [s [Hs Ha]]. destruct (concat_states a b _ _ Hs) as [s' [E' [K1 K2]]]. exists s'. split; auto. rewrite K2; auto.
    intros Hi. apply accs_lt in Hi; auto. lia.
Qed.

(** Sortedness and targets of all edges, from the description of the states. *)
Definition edges_in (sts : list nstate) (n : nat) : Prop := forall q st e, nth_error sts q = Some st -> In e (ns_edges st) -> ne_dst e < n /\ ssorted (ne_sym e).
Lemma edges_in_app : forall a b n, edges_in a n -> edges_in b n -> edges_in (a ++ b) n.
Proof.
  intros a b n Ha Hb q st e H. destruct (Nat.lt_ge_cases q (length a)).
  - rewrite nth_error_app1 in H; auto. eapply Ha; eauto.
  - rewrite nth_error_app2 in H; auto. eapply Hb; eauto.
Qed.
Lemma edges_in_shift : forall k sts n, edges_in sts n -> edges_in (map (shift_state k) sts) (k + n).
Proof.
  intros k sts n H q st e H1 H2. rewrite nth_error_map in H1. destruct (nth_error sts q) as [s|] eqn:E; cbn in H1; [|discriminate]. injection H1 as <-.
  cbn in H2. apply in_map_iff in H2. destruct H2 as [e0 [<- He]]. destruct (H _ _ _ E He). cbn. split; auto; lia.
Qed.
Lemma edges_in_le : forall sts n m, edges_in sts n -> n <= m -> edges_in sts m.
Proof. intros sts n m H Hl q st e H1 H2. destruct (H _ _ _ H1 H2). split; auto; lia. Qed.
Lemma wf_edges_in : forall N, nfa_wf N -> edges_in (n_states N) (length (n_states N)).
Proof. intros N W q st e. apply (nw_dst _ W). Qed.
Lemma eps_edge_ok : forall l n, (forall i, In i l -> i < n) -> forall e, In e (map eps_edge l) -> ne_dst e < n /\ ssorted (ne_sym e).
Proof. intros l n H e He. apply eps_edge_In in He. destruct He as [i [Hi ->]]. cbn. split; auto. constructor. Qed.

Lemma concat_wf : forall a b, nfa_wf a -> nfa_wf b -> nfa_wf (nfa_concat a b).
Proof.
  intros a b Wa Wb. assert (Wab: edges_in (n_states a ++ map (shift_state (length (n_states a))) (n_states b)) (length (n_states a) + length (n_states b))).
  { apply edges_in_app; [eapply edges_in_le; [apply wf_edges_in; auto|lia]|]. apply edges_in_shift. apply wf_edges_in; auto. }
  constructor.
  - intros q s' e H1 H2. rewrite concat_length. destruct (concat_states_inv _ _ _ _ H1) as [s [Hs [K1 K2]]].
    destruct (in_dec Nat.eq_dec q (n_accs a)) as [Hq|Hq]; [|rewrite (K2 Hq) in *; eapply Wab; eauto].
    apply (K1 Hq) in H2. destruct H2 as [H2|H2]; [eapply Wab; eauto|]. eapply eps_edge_ok; eauto.
    intros i Hi. apply in_map_iff in Hi. destruct Hi as [i0 [<- Hi]]. apply (nw_init _ Wb) in Hi. lia.
  - intros i Hi. rewrite concat_length. apply (nw_init _ Wa) in Hi. lia.
  - intros q. change (In q (map (Nat.add (length (n_states a))) (n_accs b)) <-> nF (nfa_concat a b) q). rewrite concat_acc; auto. rewrite in_map_iff.
    split; intros [p [H1 H2]]; exists p; split; auto; apply (nw_accs _ Wb); auto.
Qed.

Lemma two_path2 : forall k E1 E2 X q w f, apath (two k E1 E2 X) q w f -> forall p, q = k + p -> exists g, f = k + g /\ apath E2 p w g.
Proof.
  intros k E1 E2 X q w f H. induction H as [q|q l q1 w q2 H HP IH|q q1 w q2 H HP IH]; intros p ->.
  - exists p. split; auto. constructor.
  - destruct H as [[H _]|[p0 [p' [H1 [-> H]]]]]; [lia|]. assert (p0 = p) by lia; subst. destruct (IH p' eq_refl) as [g [-> Hg]]. exists g. split; auto. eapply ap_lab; eauto.
  - destruct H as [[H _]|[p0 [p' [H1 [-> H]]]]]; [lia|]. assert (p0 = p) by lia; subst. destruct (IH p' eq_refl) as [g [-> Hg]]. exists g. split; auto. eapply ap_eps; eauto.
Qed.
Lemma two_path2_back : forall k E1 E2 X p w g, apath E2 p w g -> apath (two k E1 E2 X) (k + p) w (k + g).
Proof.
  intros k E1 E2 X p w g H. induction H.
  - constructor.
  - eapply ap_lab; eauto. right. eauto.
  - eapply ap_eps; eauto. right. eauto.
Qed.
Lemma two_path1_back : forall k (E1 E2 : edgeset) X q w f, (forall q l q', E1 q l q' -> q < k) -> apath E1 q w f -> apath (two k E1 E2 X) q w f.
Proof. intros k E1 E2 X q w f R. apply apath_mono. intros a l b H. left. split; eauto. Qed.
(** A path from the first part stays there or crosses once. *)
Lemma two_path1 : forall k (E1 E2 : edgeset) X q w f, (forall q l q', E1 q l q' -> q' < k) -> apath (two k E1 E2 X) q w f -> q < k ->
  (f < k /\ apath E1 q w f) \/ exists w1 w2 a i g, w = w1 ++ w2 /\ apath E1 q w1 a /\ X a i /\ apath E2 i w2 g /\ f = k + g.
Proof.
  intros k E1 E2 X q w f R H. induction H as [q|q l q1 w q2 H HP IH|q q1 w q2 H HP IH]; intros Hq.
  - left. split; auto. constructor.
  - destruct H as [[_ [H|[H _]]]|[p [p' [-> _]]]]; [|discriminate|lia]. destruct (IH (R _ _ _ H)) as [[H1 H2]|[w1 [w2 [a [i [g [-> [H1 H2]]]]]]]].
    + left. split; auto. eapply ap_lab; eauto.
    + right. exists (l :: w1), w2, a, i, g. ands; auto; try apply H2. eapply ap_lab; eauto.
  - destruct H as [[_ [H|[_ [i [HX ->]]]]]|[p [p' [-> _]]]]; [| |lia].
    + destruct (IH (R _ _ _ H)) as [[H1 H2]|[w1 [w2 [a [i [g [-> [H1 H2]]]]]]]].
      * left. split; auto. eapply ap_eps; eauto.
      * right. exists w1, w2, a, i, g. ands; auto; try apply H2. eapply ap_eps; eauto.
    + right. destruct (two_path2 _ _ _ _ _ _ _ HP i eq_refl) as [g [-> Hg]]. exists [], w, q, i, g. ands; auto. constructor.
Qed.

Lemma apath_iff : forall (E E' : edgeset), (forall a l b, E a l b <-> E' a l b) -> forall q w f, apath E q w f <-> apath E' q w f.
Proof. intros E E' H q w f. split; apply apath_mono; intros; apply H; auto. Qed.

Lemma concat_lang : forall a b, nfa_wf a -> nfa_wf b -> forall w, nfa_lang (nfa_concat a b) w <-> exists w1 w2, w = w1 ++ w2 /\ nfa_lang a w1 /\ nfa_lang b w2.
Proof.
  intros a b Wa Wb w. assert (R: forall q l q', nE a q l q' -> q' < length (n_states a)) by (intros; eapply nE_dst; eauto).
  assert (EQ := apath_iff _ _ (concat_edges a b Wa Wb)). split.
  - intros [i [f [Hi [Hp Hf]]]]. cbn in Hi. apply EQ in Hp. apply concat_acc in Hf; auto. destruct Hf as [p [-> Hf]].
    apply two_path1 in Hp; [|auto|apply (nw_init _ Wa); auto]. destruct Hp as [[H _]|[w1 [w2 [s [j [g [-> [H1 [[H2 H3] [H4 H5]]]]]]]]]]; [lia|].
    assert (g = p) by lia. subst. exists w1, w2. ands; auto.
    + exists i, s. ands; auto. apply (nw_accs _ Wa); auto.
    + exists j, p. ands; auto.
  - intros [w1 [w2 [-> [[i [s [Hi [Hp Hs]]]] [j [f [Hj [Hq Hf]]]]]]]]. exists i, (length (n_states a) + f). cbn [n_init nfa_concat]. ands; auto.
    + apply EQ. eapply apath_app; [apply two_path1_back; [intros; eapply sts_edges_lt; eauto|exact Hp]|].
      eapply ap_eps; [|apply two_path2_back; exact Hq]. left. split; [apply nF_lt; auto|]. right. split; auto. exists j. ands; auto. apply (nw_accs _ Wa); auto.
    + apply concat_acc; auto. exists f; auto.
Qed.

(** Words that lead from an initial state to an initial state. *)
Definition loops (N : nfa) (w : list nat) : Prop := exists i j, In i (n_init N) /\ In j (n_init N) /\ apath (nE N) i w j.
Lemma concat_loops : forall a b, nfa_wf a -> nfa_wf b -> forall w, loops (nfa_concat a b) w <-> loops a w.
Proof.
  intros a b Wa Wb w. assert (R: forall q l q', nE a q l q' -> q' < length (n_states a)) by (intros; eapply nE_dst; eauto).
  assert (EQ := apath_iff _ _ (concat_edges a b Wa Wb)). split; intros [i [j [Hi [Hj Hp]]]]; exists i, j; cbn in *; ands; auto.
  - apply EQ in Hp. apply two_path1 in Hp; [|auto|apply (nw_init _ Wa); auto]. destruct Hp as [[_ H]|[w1 [w2 [s [j' [g [-> [H1 [H2 [H4 H5]]]]]]]]]]; auto.
    apply (nw_init _ Wa) in Hj. lia.
  - apply EQ. apply two_path1_back; auto. intros; eapply sts_edges_lt; eauto.
Qed.

(** ** question_extend *)
Lemma question_spec : forall N, nfa_wf N ->
  length (n_states (nfa_question N)) = length (n_states N) /\
  (forall i s, nth_error (n_states N) i = Some s -> exists b, nth_error (n_states (nfa_question N)) i = Some (mk_nstate (ns_edges s) b) /\ (b = true <-> ns_acc s = true \/ In i (n_init N))) /\
  (forall i, In i (n_accs (nfa_question N)) <-> In i (n_accs N) \/ In i (n_init N)).
Proof.
  intros N W. unfold nfa_question.
  set (f := fun (p : list nstate * list nat) s => match nth_error (fst p) s with Some st => if ns_acc st then p else (upd (fst p) s (mk_nstate (ns_edges st) true), snd p ++ [s]) | None => p end).
  assert (G: forall l p, (forall i, In i l -> i < length (fst p)) -> (forall i, In i (snd p) <-> sts_acc (fst p) i) ->
    length (fst (fold_left f l p)) = length (fst p) /\
    (forall i s, nth_error (fst p) i = Some s -> exists b, nth_error (fst (fold_left f l p)) i = Some (mk_nstate (ns_edges s) b) /\ (b = true <-> ns_acc s = true \/ In i l)) /\
    (forall i, In i (snd (fold_left f l p)) <-> In i (snd p) \/ In i l)).
  { induction l as [|a l IH]; intros p HL HS; cbn [fold_left].
    - ands; auto; [|cbn; tauto]. intros i s H. exists (ns_acc s). rewrite H. destruct s; cbn. split; auto. tauto.
    - destruct (nth_error_ex _ (fst p) a (HL a (or_introl eq_refl))) as [sa Ha].
      assert (Hacc: In a (snd p) <-> ns_acc sa = true). { rewrite HS. split; [intros [s [E1 E2]]; congruence|intros; exists sa; auto]. }
      assert (Hf: f p a = if ns_acc sa then p else (upd (fst p) a (mk_nstate (ns_edges sa) true), snd p ++ [a])) by (unfold f; rewrite Ha; auto).
      assert (HLn: length (fst (f p a)) = length (fst p)) by (rewrite Hf; destruct (ns_acc sa); cbn; auto; apply upd_length).
      destruct (IH (f p a)) as [I1 [I2 I3]].
      + intros i Hi. rewrite HLn. apply HL; right; auto.
      + intros i. rewrite Hf. destruct (ns_acc sa) eqn:Ea; auto. cbn [fst snd]. rewrite in_app_iff, HS. cbn. split.
        * intros [[s [E1 E2]]|[<-|[]]].
          -- destruct (Nat.eq_dec a i) as [->|Hn]; [congruence|]. exists s. rewrite nth_error_upd_neq; auto.
          -- exists (mk_nstate (ns_edges sa) true). rewrite nth_error_upd_eq; auto. eapply nth_error_lt; eauto.
        * intros [s [E1 E2]]. destruct (Nat.eq_dec a i) as [->|Hn]; auto. left. exists s. rewrite nth_error_upd_neq in E1; auto.
      + ands.
        * congruence.
        * intros i s Hs. destruct (Nat.eq_dec a i) as [->|Hn].
          -- assert (s = sa) by congruence; subst. destruct (I2 i (mk_nstate (ns_edges sa) true)) as [b [E1 E2]].
             { rewrite Hf. destruct (ns_acc sa) eqn:Ea; [rewrite Ha; f_equal; destruct sa; cbn in *; congruence|]. cbn. rewrite nth_error_upd_eq; auto. eapply nth_error_lt; eauto. }
             exists b. split; auto. rewrite E2. cbn. tauto.
          -- destruct (I2 i s) as [b [E1 E2]].
             { rewrite Hf. destruct (ns_acc sa); auto. cbn. rewrite nth_error_upd_neq; auto. }
             exists b. split; auto. rewrite E2. cbn. tauto.
        * intros i. rewrite I3. rewrite Hf. destruct (ns_acc sa) eqn:Ea; cbn [snd].
          -- cbn. split; [tauto|]. intros [?|[->|?]]; auto. left. tauto.
          -- rewrite in_app_iff. cbn. tauto. }
  destruct (G (n_init N) (n_states N, n_accs N)) as [G1 [G2 G3]]; cbn [fst snd]; [apply (nw_init _ W)|apply (nw_accs _ W)|]. ands; auto.
Qed.

Lemma question_edges : forall N, nfa_wf N -> forall q l q', nE (nfa_question N) q l q' <-> nE N q l q'.
Proof.
  intros N W q l q'. destruct (question_spec N W) as [H1 [H2 H3]]. split.
  - intros [s' [e [E1 [E2 [E3 E4]]]]]. destruct (nth_error_ex _ (n_states N) q) as [s Hs]; [rewrite <- H1; eapply nth_error_lt; eauto|].
    destruct (H2 _ _ Hs) as [b [Eb _]]. assert (s' = mk_nstate (ns_edges s) b) by congruence; subst. exists s, e. auto.
  - intros [s [e [E1 [E2 [E3 E4]]]]]. destruct (H2 _ _ E1) as [b [Eb _]]. exists (mk_nstate (ns_edges s) b), e. auto.
Qed.
Lemma question_acc : forall N, nfa_wf N -> forall q, nF (nfa_question N) q <-> nF N q \/ In q (n_init N).
Proof.
  intros N W q. destruct (question_spec N W) as [H1 [H2 H3]]. split.
  - intros [s' [E1 E2]]. destruct (nth_error_ex _ (n_states N) q) as [s Hs]; [rewrite <- H1; eapply nth_error_lt; eauto|].
    destruct (H2 _ _ Hs) as [b [Eb K]]. assert (s' = mk_nstate (ns_edges s) b) by congruence; subst. cbn in E2. apply K in E2. destruct E2; auto. left. exists s; auto.
  - intros H. assert (Hl: q < length (n_states N)) by (destruct H as [H|H]; [apply nF_lt; auto|apply (nw_init _ W); auto]).
    destruct (nth_error_ex _ _ _ Hl) as [s Hs]. destruct (H2 _ _ Hs) as [b [Eb K]]. exists (mk_nstate (ns_edges s) b). split; auto. cbn. apply K.
    destruct H as [[s0 [X Y]]|H]; auto. left. congruence.
Qed.
Lemma question_wf : forall N, nfa_wf N -> nfa_wf (nfa_question N).
Proof.
  intros N W. destruct (question_spec N W) as [H1 [H2 H3]]. constructor.
  - intros q s' e E1 E2. rewrite H1. destruct (nth_error_ex _ (n_states N) q) as [s Hs]; [rewrite <- H1; eapply nth_error_lt; eauto|].
    destruct (H2 _ _ Hs) as [b [Eb _]]. assert (s' = mk_nstate (ns_edges s) b) by congruence; subst. eapply nw_dst; eauto.
  - intros i Hi. rewrite H1. apply (nw_init _ W); auto.
  - intros q. rewrite H3. fold (nF (nfa_question N) q). rewrite question_acc; auto. rewrite (nw_accs _ W). tauto.
Qed.
Lemma question_lang : forall N, nfa_wf N -> forall w, nfa_lang (nfa_question N) w <-> nfa_lang N w \/ loops N w.
Proof.
  intros N W w. assert (EQ := apath_iff _ _ (question_edges N W)). split.
  - intros [i [f [Hi [Hp Hf]]]]. apply EQ in Hp. apply question_acc in Hf; auto. cbn in Hi. destruct Hf as [Hf|Hf]; [left; exists i, f; auto|right; exists i, f; auto].
  - intros [[i [f [Hi [Hp Hf]]]]|[i [f [Hi [Hf Hp]]]]]; exists i, f; cbn; ands; auto; try (apply EQ; auto); apply question_acc; auto.
Qed.
Lemma question_loops : forall N, nfa_wf N -> forall w, loops (nfa_question N) w <-> loops N w.
Proof.
  intros N W w. assert (EQ := apath_iff _ _ (question_edges N W)). split; intros [i [f [Hi [Hf Hp]]]]; exists i, f; cbn in *; ands; auto; apply EQ; auto.
Qed.

(** ** plus_extend *)
Lemma plus_edge_spec : forall s si, ns_acc (plus_edge s si) = ns_acc s /\
  (forall l d, (exists e, In e (ns_edges (plus_edge s si)) /\ ne_dst e = d /\ match l with None => ne_eps e = true | Some x => sym_ok e x end) <->
               (exists e, In e (ns_edges s) /\ ne_dst e = d /\ match l with None => ne_eps e = true | Some x => sym_ok e x end) \/ (l = None /\ d = si)) /\
  (forall n, si < n -> (forall e, In e (ns_edges s) -> ne_dst e < n /\ ssorted (ne_sym e)) -> forall e, In e (ns_edges (plus_edge s si)) -> ne_dst e < n /\ ssorted (ne_sym e)).
Proof.
  intros s si. unfold plus_edge; cbn [ns_acc ns_edges]. split; auto. destruct (existsb (fun e => ne_dst e =? si) (ns_edges s)) eqn:EX.
  - apply existsb_exists in EX. destruct EX as [e0 [He0 Hd0]]. apply Nat.eqb_eq in Hd0. split.
    + intros l d. split.
      * intros [e [H1 [H2 H3]]]. apply in_map_iff in H1. destruct H1 as [e1 [<- H1]]. destruct (ne_dst e1 =? si) eqn:E; [|left; exists e1; auto].
        apply Nat.eqb_eq in E. cbn in H2. destruct l as [x|]; [|right; split; auto; congruence]. left. exists e1. auto.
      * intros [[e [H1 [H2 H3]]]|[-> ->]].
        -- exists (if ne_dst e =? si then mk_nedge true (ne_neg e) (ne_sym e) (ne_dst e) else e). split; [apply in_map_iff; exists e; auto|].
           destruct (ne_dst e =? si) eqn:E; auto. cbn. split; auto. destruct l; auto.
        -- exists (mk_nedge true (ne_neg e0) (ne_sym e0) (ne_dst e0)). split; [|auto]. apply in_map_iff. exists e0. rewrite Hd0, Nat.eqb_refl. rewrite <- Hd0. auto.
    + intros n Hn H e He. apply in_map_iff in He. destruct He as [e1 [<- H1]]. destruct (ne_dst e1 =? si); cbn; auto.
  - split.
    + intros l d. split.
      * intros [e [H1 [H2 H3]]]. apply in_app_or in H1. destruct H1 as [H1|[<-|[]]]; [left; exists e; auto|]. right. destruct l as [x|]; [cbn in H3; unfold sym_ok in H3; cbn in H3; tauto|auto].
      * intros [[e [H1 H2]]|[-> ->]]; [exists e; split; auto; apply in_or_app; auto|]. exists (eps_edge si). split; [apply in_or_app; right; left; auto|auto].
    + intros n Hn H e He. apply in_app_or in He. destruct He as [He|[<-|[]]]; auto. cbn. split; auto. constructor.
Qed.

Lemma plus_inner : forall is s sts, exists g, fold_left (fun sts si => st_mod sts s (fun st => plus_edge st si)) is sts = st_mod sts s g /\ g = fun st => fold_left plus_edge is st.
Proof.
  intros is s. induction is as [|a is IH]; intros sts; cbn [fold_left].
  - eexists. split; [|reflexivity]. unfold st_mod. destruct (nth_error sts s) as [x|] eqn:E; auto.
    apply nth_error_split in E. destruct E as [l1 [l2 [-> <-]]]. clear. induction l1; cbn; congruence.
  - destruct (IH (st_mod sts s (fun st => plus_edge st a))) as [g [E ->]]. eexists. split; [|reflexivity]. rewrite E.
    unfold st_mod at 1 3. destruct (nth_error sts s) as [x|] eqn:Ex.
    + rewrite (st_mod_eq _ _ _ _ Ex). unfold st_mod. rewrite Ex. clear -Ex. apply nth_error_split in Ex. destruct Ex as [l1 [l2 [-> <-]]]. induction l1; cbn; auto. f_equal; auto.
    + unfold st_mod. rewrite Ex. rewrite Ex. auto.
Qed.

Lemma plus_fold_spec : forall is s, ns_acc (fold_left plus_edge is s) = ns_acc s /\
  (forall l d, (exists e, In e (ns_edges (fold_left plus_edge is s)) /\ ne_dst e = d /\ match l with None => ne_eps e = true | Some x => sym_ok e x end) <->
               (exists e, In e (ns_edges s) /\ ne_dst e = d /\ match l with None => ne_eps e = true | Some x => sym_ok e x end) \/ (l = None /\ In d is)) /\
  (forall n, (forall i, In i is -> i < n) -> (forall e, In e (ns_edges s) -> ne_dst e < n /\ ssorted (ne_sym e)) -> forall e, In e (ns_edges (fold_left plus_edge is s)) -> ne_dst e < n /\ ssorted (ne_sym e)).
Proof.
  induction is as [|a is IH]; intros s; cbn [fold_left].
  - ands; auto. intros l d. cbn. tauto.
  - destruct (IH (plus_edge s a)) as [I1 [I2 I3]]. destruct (plus_edge_spec s a) as [P1 [P2 P3]]. ands.
    + congruence.
    + intros l d. rewrite I2, P2. cbn. split; [intros [[?|[? ->]]|[? ?]]; auto|intros [?|[? [<-|?]]]; auto].
    + intros n Hn. intros H. apply I3; [intros; apply Hn; right; auto|]. apply P3; auto. apply Hn; left; auto.
Qed.

Lemma plus_iter : forall is k s, ns_acc (Nat.iter k (fun st => fold_left plus_edge is st) s) = ns_acc s /\
  (forall l d, (exists e, In e (ns_edges (Nat.iter k (fun st => fold_left plus_edge is st) s)) /\ ne_dst e = d /\ match l with None => ne_eps e = true | Some x => sym_ok e x end) <->
               (exists e, In e (ns_edges s) /\ ne_dst e = d /\ match l with None => ne_eps e = true | Some x => sym_ok e x end) \/ (k <> 0 /\ l = None /\ In d is)) /\
  (forall n, (forall i, In i is -> i < n) -> (forall e, In e (ns_edges s) -> ne_dst e < n /\ ssorted (ne_sym e)) -> forall e, In e (ns_edges (Nat.iter k (fun st => fold_left plus_edge is st) s)) -> ne_dst e < n /\ ssorted (ne_sym e)).
Proof.
  intros is k s. induction k as [|k [I1 [I2 I3]]].
  - cbn. ands; auto. intros. split; auto. intros [?|[? _]]; [auto|congruence].
  - change (Nat.iter (Datatypes.S k) (fun st => fold_left plus_edge is st) s) with (fold_left plus_edge is (Nat.iter k (fun st => fold_left plus_edge is st) s)).
    destruct (plus_fold_spec is (Nat.iter k (fun st => fold_left plus_edge is st) s)) as [P1 [P2 P3]]. ands.
    + congruence.
    + intros l d. rewrite P2, I2. intuition.
    + intros n Hn H. apply P3; auto.
Qed.

Lemma plus_states : forall N, length (n_states (nfa_plus N)) = length (n_states N) /\
  forall i s, nth_error (n_states N) i = Some s -> exists k, nth_error (n_states (nfa_plus N)) i = Some (Nat.iter k (fun st => fold_left plus_edge (n_init N) st) s) /\ (k = 0 <-> ~ In i (n_accs N)).
Proof.
  intros N. unfold nfa_plus; cbn [n_states].
  assert (E: forall l sts, fold_left (fun sts s => fold_left (fun sts si => st_mod sts s (fun st => plus_edge st si)) (n_init N) sts) l sts =
             fold_left (fun sts i => st_mod sts i (fun st => fold_left plus_edge (n_init N) st)) l sts).
  { induction l as [|a l IH]; intros sts; cbn [fold_left]; auto. destruct (plus_inner (n_init N) a sts) as [g [-> ->]]. apply IH. }
  rewrite E. apply st_mod_loop.
Qed.

Lemma plus_edges : forall N, nfa_wf N -> forall q l q', nE (nfa_plus N) q l q' <-> nE N q l q' \/ (l = None /\ In q (n_accs N) /\ In q' (n_init N)).
Proof.
  intros N W q l q'. destruct (plus_states N) as [HL HS]. split.
  - intros [s' [e [E1 E2]]]. destruct (nth_error_ex _ (n_states N) q) as [s Hs]; [rewrite <- HL; eapply nth_error_lt; eauto|].
    destruct (HS _ _ Hs) as [k [Ek Hk]]. assert (s' = Nat.iter k (fun st => fold_left plus_edge (n_init N) st) s) by congruence; subst.
    destruct (plus_iter (n_init N) k s) as [_ [P2 _]]. destruct (proj1 (P2 l q')) as [[e0 H]|[H1 [H2 H3]]]; [exists e; auto|left; exists s, e0; auto|]. right. ands; auto.
    destruct (in_dec Nat.eq_dec q (n_accs N)); auto. exfalso. apply H1. apply Hk. auto.
  - intros H. assert (Hl: q < length (n_states N)) by (destruct H as [H|[_ [H _]]]; [eapply sts_edges_lt; eauto|apply accs_lt; auto]).
    destruct (nth_error_ex _ _ _ Hl) as [s Hs]. destruct (HS _ _ Hs) as [k [Ek Hk]]. destruct (plus_iter (n_init N) k s) as [_ [P2 _]].
    destruct (proj2 (P2 l q')) as [e He].
    + destruct H as [[s0 [e [H1 H2]]]|[H1 [H2 H3]]]; [left; assert (s0 = s) by congruence; subst; exists e; auto|right; ands; auto]. intros ->. apply Hk; auto.
    + eexists _, e. split; [exact Ek|auto].
Qed.
Lemma plus_acc : forall N, nfa_wf N -> forall q, nF (nfa_plus N) q <-> nF N q.
Proof.
  intros N W q. destruct (plus_states N) as [HL HS]. split.
  - intros [s' [E1 E2]]. destruct (nth_error_ex _ (n_states N) q) as [s Hs]; [rewrite <- HL; eapply nth_error_lt; eauto|].
    destruct (HS _ _ Hs) as [k [Ek Hk]]. exists s. split; auto. rewrite <- (proj1 (plus_iter (n_init N) k s)). congruence.
  - intros [s [Hs E2]]. destruct (HS _ _ Hs) as [k [Ek Hk]]. eexists. split; [exact Ek|]. rewrite (proj1 (plus_iter (n_init N) k s)). auto.
Qed.
Lemma plus_wf : forall N, nfa_wf N -> nfa_wf (nfa_plus N).
Proof.
  intros N W. destruct (plus_states N) as [HL HS]. constructor.
  - intros q s' e E1 E2. rewrite HL. destruct (nth_error_ex _ (n_states N) q) as [s Hs]; [rewrite <- HL; eapply nth_error_lt; eauto|].
    destruct (HS _ _ Hs) as [k [Ek Hk]]. assert (s' = Nat.iter k (fun st => fold_left plus_edge (n_init N) st) s) by congruence; subst.
    eapply (proj2 (proj2 (plus_iter (n_init N) k s))); eauto; [apply (nw_init _ W)|]. intros; eapply nw_dst; eauto.
  - intros i Hi. rewrite HL. apply (nw_init _ W); auto.
  - intros q. fold (nF (nfa_plus N) q). rewrite plus_acc; auto. apply (nw_accs _ W).
Qed.

(** Zero or more words of a language. *)
Inductive lstar (L : list nat -> Prop) : list nat -> Prop :=
| ls_nil : lstar L []
| ls_app : forall w1 w2, L w1 -> lstar L w2 -> lstar L (w1 ++ w2).
Lemma lstar_app : forall L w1 w2, lstar L w1 -> lstar L w2 -> lstar L (w1 ++ w2).
Proof. intros L w1 w2 H. induction H; cbn; auto. intros. rewrite <- app_assoc. constructor; auto. Qed.

Lemma plus_path : forall N, nfa_wf N -> forall q w f, apath (nE (nfa_plus N)) q w f ->
  apath (nE N) q w f \/ exists w1 w2 w3 a i, w = w1 ++ w2 ++ w3 /\ apath (nE N) q w1 a /\ nF N a /\ lstar (nfa_lang N) w2 /\ In i (n_init N) /\ apath (nE N) i w3 f.
Proof.
  intros N W q w f H. induction H as [q|q l q1 w q2 H HP IH|q q1 w q2 H HP IH].
  - left. constructor.
  - apply plus_edges in H; auto. destruct H as [H|[H _]]; [|discriminate]. destruct IH as [IH|[w1 [w2 [w3 [a [i [-> [H1 H2]]]]]]]].
    + left. eapply ap_lab; eauto.
    + right. exists (l :: w1), w2, w3, a, i. ands; auto; try apply H2. eapply ap_lab; eauto.
  - apply plus_edges in H; auto. destruct H as [H|[_ [Ha Hi]]].
    + destruct IH as [IH|[w1 [w2 [w3 [a [i [-> [H1 H2]]]]]]]].
      * left. eapply ap_eps; eauto.
      * right. exists w1, w2, w3, a, i. ands; auto; try apply H2. eapply ap_eps; eauto.
    + right. apply (nw_accs _ W) in Ha. destruct IH as [IH|[w1 [w2 [w3 [a [i [-> [H1 [H2 [H3 [H4 H5]]]]]]]]]]].
      * exists [], [], w, q, q1. ands; auto; constructor.
      * exists [], (w1 ++ w2), w3, q, i. ands; auto; [rewrite app_assoc; auto|constructor|]. constructor; auto. exists q1, a. auto.
Qed.
Lemma plus_path_back : forall N q w f, nfa_wf N -> apath (nE N) q w f -> apath (nE (nfa_plus N)) q w f.
Proof. intros N q w f W. apply apath_mono. intros. apply plus_edges; auto. Qed.
Lemma plus_star_back : forall N, nfa_wf N -> forall w, lstar (nfa_lang N) w -> forall a i w2 f, nF N a -> In i (n_init N) -> apath (nE (nfa_plus N)) i w2 f ->
  apath (nE (nfa_plus N)) a (w ++ w2) f.
Proof.
  intros N W w H. induction H as [|w1 w2 H1 H IH]; intros a i w3 f Ha Hi Hp.
  - cbn. eapply ap_eps; eauto. apply plus_edges; auto. right. ands; auto. apply (nw_accs _ W); auto.
  - destruct H1 as [j [b [Hj [Hb Fb]]]]. rewrite <- app_assoc. apply (ap_eps _ a j).
    + apply plus_edges; auto. right. ands; auto. apply (nw_accs _ W); auto.
    + eapply apath_app; [apply plus_path_back; eauto|]. eapply IH; eauto.
Qed.
Lemma plus_lang : forall N, nfa_wf N -> forall w, nfa_lang (nfa_plus N) w <-> exists w1 w2, w = w1 ++ w2 /\ nfa_lang N w1 /\ lstar (nfa_lang N) w2.
Proof.
  intros N W w. split.
  - intros [i [f [Hi [Hp Hf]]]]. apply (plus_acc N W) in Hf. apply plus_path in Hp; auto. destruct Hp as [Hp|[w1 [w2 [w3 [a [j [-> [H1 [H2 [H3 [H4 H5]]]]]]]]]]].
    + exists w, []. rewrite app_nil_r. ands; auto; [exists i, f; auto|constructor].
    + exists w1, (w2 ++ w3). ands; auto; [exists i, a; auto|]. apply lstar_app; auto. rewrite <- (app_nil_r w3). constructor; [exists j, f; auto|constructor].
  - intros [w1 [w2 [-> [[i [f [Hi [Hp Hf]]]] HS]]]]. inversion HS as [|v1 v2 H1 H2]; subst.
    + rewrite app_nil_r. exists i, f. ands; auto; [apply plus_path_back; auto|apply plus_acc; auto].
    + (* the last word of the sequence ends in the accepting state *)
      assert (G: forall w2, lstar (nfa_lang N) w2 -> forall a, nF N a -> exists f', nF N f' /\ apath (nE (nfa_plus N)) a w2 f').
      { clear -W. intros w2 H. induction H as [|w1 w2 [j [b [Hj [Hb Fb]]]] H IH]; intros a Ha; [exists a; split; auto; constructor|].
        destruct (IH b Fb) as [f' [Ff Hf]]. exists f'. split; auto. apply (ap_eps _ a j).
        - apply plus_edges; auto. right. ands; auto. apply (nw_accs _ W); auto.
        - eapply apath_app; [apply plus_path_back; eauto|auto]. }
      destruct (G _ HS f Hf) as [f' [Ff' Hf']]. exists i, f'. ands; auto; [eapply apath_app; [apply plus_path_back; eauto|auto]|apply plus_acc; auto].
Qed.
Lemma plus_loops : forall N, nfa_wf N -> forall w, loops (nfa_plus N) w -> loops N w \/ exists w1 w2 w3, w = w1 ++ w2 ++ w3 /\ nfa_lang N w1 /\ lstar (nfa_lang N) w2 /\ loops N w3.
Proof.
  intros N W w [i [j [Hi [Hj Hp]]]]. apply plus_path in Hp; auto. cbn in Hi, Hj. destruct Hp as [Hp|[w1 [w2 [w3 [a [k [-> [H1 [H2 [H3 [H4 H5]]]]]]]]]]].
  - left. exists i, j. auto.
  - right. exists w1, w2, w3. ands; auto; [exists i, a; auto|exists k, j; auto].
Qed.

(** ** or_extend *)
Lemma or_edges : forall a b, nfa_wf a -> nfa_wf b -> forall q l q', nE (nfa_or a b) q l q' <->
  two (length (n_states a)) (nE a) (nE b) (fun _ _ => False) q l q' \/
  (l = None /\ q = length (n_states a) + length (n_states b) /\ (In q' (n_init a) \/ exists i, In i (n_init b) /\ q' = length (n_states a) + i)).
Proof.
  intros a b Wa Wb q l q'. unfold nE, nfa_or. cbn [n_states shift_nfa n_init]. rewrite app_edges. split.
  - intros [H|[p [-> H]]].
    + left. left. split; [eapply sts_edges_lt; eauto|]. left; auto.
    + apply app_edges in H. destruct H as [H|[p0 [-> H]]].
      * apply shift_edges in H. destruct H as [p' [-> H]]. left. right. exists p, p'. auto.
      * destruct H as [st [e [H1 [H2 [H3 H4]]]]]. destruct p0 as [|[|]]; cbn in H1; try discriminate. injection H1 as <-. cbn in H2.
        apply in_app_or in H2. right. rewrite map_length. assert (l = None).
        { destruct l as [x|]; auto. exfalso. destruct H2 as [H2|H2]; apply eps_edge_In in H2; destruct H2 as [i [_ ->]]; unfold sym_ok in H4; cbn in H4; tauto. }
        ands; auto. destruct H2 as [H2|H2]; apply eps_edge_In in H2; destruct H2 as [i [Hi ->]]; cbn in H3; subst q'; auto.
        right. apply in_map_iff in Hi. destruct Hi as [i0 [<- Hi]]. exists i0; auto.
  - intros [[[H1 [H2|[_ [i [[] _]]]]]|[p [p' [-> [-> H]]]]]|[-> [-> H]]].
    + left; auto.
    + right. exists p. split; auto. apply app_edges. left. apply shift_edges. eauto.
    + right. exists (length (n_states b)). split; auto. apply app_edges. right. exists 0. rewrite map_length. split; [lia|].
      eexists _, (eps_edge q'). split; [cbn; reflexivity|]. cbn. ands; auto. apply in_or_app. destruct H as [H|[i [Hi ->]]].
      * left. apply in_map; auto.
      * right. apply in_map. apply in_map; auto.
Qed.
Lemma or_acc : forall a b, nfa_wf a -> nfa_wf b -> forall q, nF (nfa_or a b) q <-> nF a q \/ exists p, q = length (n_states a) + p /\ nF b p.
Proof.
  intros a b Wa Wb q. unfold nF, nfa_or. cbn [n_states shift_nfa]. rewrite app_acc. split.
  - intros [H|[p [-> H]]]; auto. apply app_acc in H. destruct H as [H|[p0 [-> [st [H1 H2]]]]].
    + right. exists p. split; auto. apply shift_acc in H; auto.
    + destruct p0 as [|[|]]; cbn in H1; try discriminate. injection H1 as <-. discriminate.
  - intros [H|[p [-> H]]]; auto. right. exists p. split; auto. apply app_acc. left. apply shift_acc. auto.
Qed.
Lemma or_wf : forall a b, nfa_wf a -> nfa_wf b -> nfa_wf (nfa_or a b).
Proof.
  intros a b Wa Wb. assert (HL: length (n_states (nfa_or a b)) = length (n_states a) + length (n_states b) + 1) by (cbn; rewrite !app_length, map_length; cbn; lia).
  constructor.
  - change (edges_in (n_states (nfa_or a b)) (length (n_states (nfa_or a b)))). rewrite HL. cbn [nfa_or n_states]. apply edges_in_app; [eapply edges_in_le; [apply wf_edges_in; auto|lia]|].
    apply edges_in_app.
    + cbn [shift_nfa n_states]. eapply edges_in_le; [apply edges_in_shift; apply wf_edges_in; auto|lia].
    + intros q st e H1 H2. destruct q as [|[|]]; cbn in H1; try discriminate. injection H1 as <-. cbn in H2. apply in_app_or in H2.
      destruct H2 as [H2|H2]; eapply eps_edge_ok; eauto; intros i Hi.
      * apply (nw_init _ Wa) in Hi. lia.
      * apply in_map_iff in Hi. destruct Hi as [i0 [<- Hi]]. apply (nw_init _ Wb) in Hi. lia.
  - intros i [<-|[]]. rewrite HL. cbn. rewrite map_length. lia.
  - intros q. fold (nF (nfa_or a b) q). rewrite or_acc; auto. cbn. rewrite in_app_iff, (nw_accs _ Wa), in_map_iff. fold (nF a q).
    split; (intros [H|[p [H1 H2]]]; [auto|right; exists p; split; auto; apply (nw_accs _ Wb); auto]).
Qed.
Lemma or_path : forall a b, nfa_wf a -> nfa_wf b -> forall q w f, apath (nE (nfa_or a b)) q w f -> q <> length (n_states a) + length (n_states b) ->
  apath (two (length (n_states a)) (nE a) (nE b) (fun _ _ => False)) q w f.
Proof.
  intros a b Wa Wb q w f H. induction H as [q|q l q1 w q2 H HP IH|q q1 w q2 H HP IH]; intros Hn; [constructor| |];
    apply or_edges in H; auto; (destruct H as [H|[_ [-> _]]]; [|congruence]).
  - eapply ap_lab; eauto. apply IH. destruct H as [[_ [H|[_ [i [[] _]]]]]|[p [p' [_ [-> H]]]]]; apply nE_dst in H; auto; lia.
  - eapply ap_eps; eauto. apply IH. destruct H as [[_ [H|[_ [i [[] _]]]]]|[p [p' [_ [-> H]]]]]; apply nE_dst in H; auto; lia.
Qed.
Lemma or_lang : forall a b, nfa_wf a -> nfa_wf b -> forall w, nfa_lang (nfa_or a b) w <-> nfa_lang a w \/ nfa_lang b w.
Proof.
  intros a b Wa Wb w. assert (R: forall q l q', nE a q l q' -> q' < length (n_states a)) by (intros; eapply nE_dst; eauto). split.
  - intros [i [f [Hi [Hp Hf]]]]. cbn in Hi. rewrite map_length in Hi. destruct Hi as [<-|[]]. apply (or_acc a b Wa Wb) in Hf.
    inversion Hp as [q E1 E2 E3|q l q1 w' q2 H HP|q q1 w' q2 H HP]; subst.
    + exfalso. destruct Hf as [Hf|[p [Hf1 Hf]]]; apply nF_lt in Hf; lia.
    + exfalso. apply or_edges in H; auto. destruct H as [H|[H _]]; [|discriminate].
      destruct H as [[H _]|[p [p' [H1 [-> H]]]]]; [lia|]. apply nE_dst in H; auto; lia.
    + apply or_edges in H; auto. destruct H as [H|[_ [_ H]]].
      { destruct H as [[H _]|[p [p' [H1 [-> H]]]]]; [lia|]. apply nE_dst in H; auto; lia. }
      destruct H as [H|[i [Hi ->]]].
      * left. assert (Hl := nw_init _ Wa _ H). apply or_path in HP; auto; [|lia]. apply two_path1 in HP; auto. destruct HP as [[H1 H2]|[w1 [w2 [x [y [g [_ [_ [[] _]]]]]]]]].
        exists q1, f. ands; auto. destruct Hf as [Hf|[p [-> Hf]]]; auto; lia.
      * right. assert (Hl := nw_init _ Wb _ Hi). apply or_path in HP; auto; [|lia]. destruct (two_path2 _ _ _ _ _ _ _ HP i eq_refl) as [g [-> Hg]].
        exists i, g. ands; auto. destruct Hf as [Hf|[p [Hf1 Hf]]]; [apply nF_lt in Hf; lia|]. assert (g = p) by lia. subst; auto.
  - assert (M: forall q w f, apath (two (length (n_states a)) (nE a) (nE b) (fun _ _ => False)) q w f -> apath (nE (nfa_or a b)) q w f).
    { intros q v f. apply apath_mono. intros. apply or_edges; auto. }
    intros [[i [f [Hi [Hp Hf]]]]|[i [f [Hi [Hp Hf]]]]].
    + exists (length (n_states a) + length (n_states b)), f. ands; [left; cbn; rewrite map_length; auto| |apply or_acc; auto].
      eapply ap_eps; [apply or_edges; auto; right; ands; auto; left; exact Hi|]. apply M. apply two_path1_back; auto. intros; eapply sts_edges_lt; eauto.
    + exists (length (n_states a) + length (n_states b)), (length (n_states a) + f). ands; [left; cbn; rewrite map_length; auto| |apply or_acc; eauto].
      eapply ap_eps; [apply or_edges; auto; right; ands; auto; right; exists i; split; eauto|]. apply M. apply two_path2_back; auto.
Qed.
Lemma or_loops : forall a b, nfa_wf a -> nfa_wf b -> forall w, loops (nfa_or a b) w -> w = [].
Proof.
  intros a b Wa Wb w [i [j [Hi [Hj Hp]]]]. cbn in Hi, Hj. rewrite map_length in Hi, Hj. destruct Hi as [<-|[]], Hj as [<-|[]].
  assert (G: forall q w f, apath (nE (nfa_or a b)) q w f -> f = length (n_states a) + length (n_states b) -> q = f /\ w = []).
  { intros q v f H. induction H as [q|q l q1 v q2 H HP IH|q q1 v q2 H HP IH]; intros E; auto; exfalso; destruct (IH E) as [-> _]; subst; apply or_edges in H; auto.
    - destruct H as [[[_ [H|[_ [i [[] _]]]]]|[p [p' [_ [E H]]]]]|[H _]]; [| |discriminate]; apply nE_dst in H; auto; lia.
    - destruct H as [[[_ [H|[_ [i [[] _]]]]]|[p [p' [_ [E H]]]]]|[_ [_ [H|[i [Hi E]]]]]].
      + apply nE_dst in H; auto; lia.
      + apply nE_dst in H; auto; lia.
      + apply (nw_init _ Wa) in H. lia.
      + apply (nw_init _ Wb) in Hi. lia. }
  apply G in Hp; auto. apply Hp.
Qed.
