(** C31: pre* with trace type Shortest. *)
From Coq Require Import List Arith Lia Bool ZArith Permutation.
From Verif Require Import Base BaseFacts Spec SpecFacts PdaModel PdaProof AutModel AutProof PreStarModel PreStarProof PreStarLang PostStarModel PostStarProof
  PathModel QueryModel QueryProof SolverModel SolverProof ProductModel TraceModel UtilModel ShortSpec ShortModel ShortProdProof PostShortProof ShortProof StoreProof ExHelp PropsShort PreShortModel PreShortProof PreShortLang.
Import ListNotations.

Lemma pre_short_spec : forall P, wf_pda P -> forall ptop oob A0, least_top ptop -> pre_ok P (wa_aut A0) -> no_in P (wa_aut A0) -> (forall e, w_of A0 e = 0%Z) ->
  (forall p id r ls, get_rule P p id = Some (r, ls) -> (0 <= r_w r)%Z) ->
  (forall q, q < pd_n P -> aut_final (wa_aut A0) q -> (exists l t, aut_edges (wa_aut A0) q l t) \/ (forall p id r ls, get_rule P p id = Some (r, ls) -> r_to r = q -> r_op r <> POP)) ->
  (forall q, oob q <> None) \/ (forall q l t, aut_edges (wa_aut A0) q l t -> q < pd_n P) ->
  exists fuel0 A, (forall fuel, pre_star_short_full P ptop oob fuel A0 = Some None \/ pre_star_short_full P ptop oob fuel A0 = done A) /\
    (forall fuel, fuel0 <= fuel -> pre_star_short_full P ptop oob fuel A0 = done A) /\
    forall p w, p < pd_n P ->
      (forall v f, wpath (aut_edges (wa_aut A)) (fun x y z => w_of A (mk_edge x y z)) p w v f -> aut_final (wa_aut A) f ->
         run_weight (pda_wrules P) (eq (p, w)) (aut_lang (pd_n P) (wa_aut A0)) v) /\
      (forall v, run_weight (pda_wrules P) (eq (p, w)) (aut_lang (pd_n P) (wa_aut A0)) v ->
         exists f v', wpath (aut_edges (wa_aut A)) (fun x y z => w_of A (mk_edge x y z)) p w v' f /\ aut_final (wa_aut A) f /\ (v' <= v)%Z).
Proof.
  intros P WP ptop oob A0 PT OK NI W0 NN AE OB.
  assert (HnN := po_n _ _ OK). assert (HO := po_ord _ _ OK).
  destruct (kinit_spec P WP unit A0 HnN HO NN NI W0 (po_nd _ _ OK)) with (x := tt) as (st & E1 & KI & F1 & _).
  { intros e He. eapply pre_ok_range; eauto. }
  { intros q Hq Ha. destruct (AE q Hq Ha) as [(l & t & H)|H]; [left|right; auto]. exists (mk_edge q l t). auto. }
  assert (OB' : (forall q, oob q <> None) \/ (forall e, In e (map fst (a_edges (wa_aut A0))) -> e_src e < pd_n P)).
  { destruct OB as [H|H]; [left; auto|right]. intros [a l c] He. cbn. eapply H; exact He. }
  assert (HH : hits unit (fun _ => false) st) by (split; [congruence|auto]).
  destruct (krun_hit_all P WP unit A0 HnN NN cb_never (fun _ => false) (fun _ _ _ _ _ _ _ _ => eq_refl) ptop oob PT OB' st _ _ KI HH) as (fuel0 & C & k & st' & KI' & HH' & WS & E2 & E3).
  assert (F2 : k_found st' = false). { destruct (k_found st') eqn:E; auto. destruct (proj1 HH' E) as (e & _ & K). discriminate. }
  exists fuel0, (k_aut st'). unfold pre_star_short_full. rewrite E1. cbn [obind]. split; [|split].
  - intros fuel. destruct (E3 fuel) as [K|K]; rewrite K; auto.
  - intros fuel L. rewrite E2; auto.
  - intros p w Hp. split.
    + intros v f H1 H2. eapply kl_sound; eauto.
    + intros v Hv. destruct (kl_complete P WP unit A0 HnN NN NI C k st' KI' (WS F2) _ _ Hv) as (f & v' & H). exists f, v'. exact H.
Qed.

Lemma pre_short_config_spec : forall P, wf_pda P -> forall ptop oob A0 state l, least_top ptop -> pre_ok P (wa_aut A0) -> no_in P (wa_aut A0) -> (forall e, w_of A0 e = 0%Z) ->
  (forall p id r ls, get_rule P p id = Some (r, ls) -> (0 <= r_w r)%Z) ->
  (forall q, q < pd_n P -> aut_final (wa_aut A0) q -> (exists l t, aut_edges (wa_aut A0) q l t) \/ (forall p id r ls, get_rule P p id = Some (r, ls) -> r_to r = q -> r_op r <> POP)) ->
  (forall q, oob q <> None) \/ (forall q l t, aut_edges (wa_aut A0) q l t -> q < pd_n P) -> state < pd_n P ->
  answers (fun fuel => pre_star_short_config P ptop oob fuel A0 state [l]) (fun r => fst r = true <-> exists v, run_weight (pda_wrules P) (eq (state, [l])) (aut_lang (pd_n P) (wa_aut A0)) v).
Proof.
  intros P WP ptop oob A0 state l PT OK NI W0 NN AE OB Hs.
  assert (HnN := po_n _ _ OK). assert (HO := po_ord _ _ OK).
  destruct (kinit_spec P WP unit A0 HnN HO NN NI W0 (po_nd _ _ OK)) with (x := tt) as (st & E1 & KI & F1 & _ & ER).
  { intros e He. eapply pre_ok_range; eauto. }
  { intros q Hq Ha. destruct (AE q Hq Ha) as [(l0 & t & H)|H]; [left|right; auto]. exists (mk_edge q l0 t). auto. }
  assert (OB' : (forall q, oob q <> None) \/ (forall e, In e (map fst (a_edges (wa_aut A0))) -> e_src e < pd_n P)).
  { destruct OB as [H|H]; [left; auto|right]. intros [a l0 c] He. cbn. eapply H; exact He. }
  set (hit := fun e => Nat.eqb (e_src e) state && lab_eqb (e_lab e) (Some l) && match nth_error (a_acc (wa_aut A0)) (e_dst e) with Some b => b | None => false end).
  assert (HH : hits unit hit st) by (split; [congruence|rewrite ER; intros _ e []]).
  assert (NV : forall A x e t w key, a_acc (wa_aut A) = a_acc (wa_aut A0) -> in_range P (wa_aut A0) e -> cb_single_short state l A x e t w key = Some (hit e, x)).
  { intros A x e t w key EA (_ & R & _). unfold cb_single_short, hit. destruct (Nat.eqb (e_src e) state && lab_eqb (e_lab e) (Some l)); auto.
    unfold accepting. rewrite EA. destruct (nth_error_ex _ _ _ R) as [b ->]. reflexivity. }
  assert (HIT : forall e, hit e = true <-> e_src e = state /\ e_lab e = Some l /\ aut_final (wa_aut A0) (e_dst e)).
  { intros e. unfold hit, aut_final. rewrite !andb_true_iff, Nat.eqb_eq, lab_eqb_eq. destruct (nth_error (a_acc (wa_aut A0)) (e_dst e)) as [b|]; [|intuition discriminate].
    destruct b; intuition congruence. }
  destruct (krun_hit_all P WP unit A0 HnN NN (cb_single_short state l) hit NV ptop oob PT OB' st _ _ KI HH) as (fuel0 & C & k & st' & KI' & HH' & WS & E2 & E3).
  assert (B := co_base _ _ _ _ _ _ _ (ki_core _ _ _ _ _ _ KI')).
  assert (AC : forall f, aut_final (wa_aut (k_aut st')) f <-> aut_final (wa_aut A0) f) by (intros f; unfold aut_final; rewrite (kb_acc _ _ _ _ B); tauto).
  assert (V : k_found st' = true <-> exists v, run_weight (pda_wrules P) (eq (state, [l])) (aut_lang (pd_n P) (wa_aut A0)) v).
  { split.
    - intros F. destruct (proj1 HH' F) as ([a x c] & He & Hh). apply HIT in Hh. cbn [e_src e_lab e_dst] in Hh. destruct Hh as (-> & -> & Hf).
      exists (kwedge (k_aut st') state (Some l) c + 0)%Z. eapply kl_sound; eauto; [|apply AC; eauto].
      apply (wp_cons _ (kwedge (k_aut st')) state (Some l) c [] 0%Z c); [exact He|constructor].
    - intros [v Hv]. destruct (k_found st') eqn:F; auto. exfalso.
      destruct (kl_complete P WP unit A0 HnN NN NI C k st' KI' (WS eq_refl) _ _ Hv) as (f & v' & Hp & Hf & _). cbn [fst snd] in Hp.
      inversion Hp as [|q0 l0 c0 w0 v2 q2 H1 H2 G1 G2 G3 G4]; subst.
      assert (HC := kl_C P unit A0 C k st' KI' (WS eq_refl) _ _ _ H1). destruct (co_C _ _ _ _ _ _ _ (ki_core _ _ _ _ _ _ KI') _ HC) as (_ & HR & _).
      assert (Hh := proj2 HH' F _ HR). destruct (kb_range _ _ _ _ B _ H1) as (_ & _ & x & Hx & _). cbn in Hx. subst l0. injection G2 as -> ->.
      assert (f = c0 \/ exists y z, aut_edges (wa_aut (k_aut st')) c0 None y /\ z = y) as [->|(y & _ & K & _)].
      { inversion H2 as [|q0 l0 c1 w0 v3 q3 K1 K2 K3 K4 K5 K6]; subst; auto. destruct l0; [discriminate|]. right. eauto. }
      + assert (K : hit (mk_edge state (Some l) c0) = true) by (apply HIT; ands; auto; apply AC; auto). congruence.
      + destruct (kb_range _ _ _ _ B _ K) as (_ & _ & x & Hx & _). discriminate. }
  assert (Hs' : state < a_size (wa_aut A0)) by lia.
  assert (WF : aut_wf (wa_aut A0)) by (eapply pre_ok_wf; eauto).
  assert (NE : forall q q', ~ aut_edges (wa_aut A0) q None q') by (intros q q' K; destruct (po_range _ _ OK _ _ _ K) as (_ & _ & x & Hx & _); discriminate).
  unfold pre_star_short_config. rewrite E1. cbn [obind]. split.
  - intros fuel. destruct (accepts_spec (wa_aut A0) WF fuel state [l] Hs') as [[K|[b [K Hb]]] _]; rewrite K; auto. cbv beta iota delta [done]. destruct b.
    + right. exists (true, A0). split; auto. cbn [fst]. split; auto. intros _. exists 0%Z. exists (state, [l]), (state, [l]). ands; auto; [|constructor].
      split; auto. destruct (proj1 Hb eq_refl) as (f & Hp & Hf). exists f. split; auto. apply npath_apath; auto.
    + destruct (E3 fuel) as [K1|K1]; rewrite K1; auto. right. exists (k_found st', k_aut st'). split; auto.
  - exists (Nat.pow (S (a_size (wa_aut A0))) (length [l]) + fuel0). intros fuel L.
    destruct (accepts_spec (wa_aut A0) WF fuel state [l] Hs') as [[K|[b [K Hb]]] Hn]; [exfalso; apply Hn; auto; lia|]. rewrite K. cbv beta iota delta [done]. destruct b; [discriminate|].
    rewrite E2 by lia. discriminate.
Qed.

(** * C31: pre_star<Trace_Type::Shortest> with a callback that does not stop the search. It ends; the weighted automaton accepts exactly the
   configurations that reach the given automaton, the weight of every accepting path is the weight of a run, and some accepting path has a
   weight not above that of a given run. Line 242 reads _popped outside of the vector for an edge that leaves a state which is not a PDA state; [oob]
   is what it reads there: without the assumption that this read gives some value, no edge of the automaton may leave such a state.
   An accepting PDA state must have an edge, or no POP rule may lead to it. *)
Theorem C31_shortest_automaton_partial : forall nlab us ptop oob A0, let P := build nlab us in let n := pd_n P in
  Forall (wf_urule nlab) us -> (forall u, In u us -> (0 <= r_w (u_rule u))%Z) -> least_top ptop ->
  pre_ok P (wa_aut A0) -> no_in P (wa_aut A0) -> (forall e, w_of A0 e = 0%Z) ->
  (forall q, q < n -> aut_final (wa_aut A0) q -> (exists l t, aut_edges (wa_aut A0) q l t) \/ (forall u, In u us -> r_to (u_rule u) = q -> r_op (u_rule u) <> POP)) ->
  (forall q, oob q <> None) \/ (forall q l t, aut_edges (wa_aut A0) q l t -> q < n) ->
  answers (fun fuel => pre_star_short_full P ptop oob fuel A0) (fun A => forall p w, p < n ->
    (forall v f, wpath (aut_edges (wa_aut A)) (fun x y z => w_of A (mk_edge x y z)) p w v f -> aut_final (wa_aut A) f ->
       run_weight (user_wrules nlab us) (eq (p, w)) (aut_lang n (wa_aut A0)) v) /\
    (forall v, run_weight (user_wrules nlab us) (eq (p, w)) (aut_lang n (wa_aut A0)) v ->
       exists f v', wpath (aut_edges (wa_aut A)) (fun x y z => w_of A (mk_edge x y z)) p w v' f /\ aut_final (wa_aut A) f /\ (v' <= v)%Z)).
Proof.
  intros nlab us ptop oob A0 P n W NN PT OK NI ZI AE OB.
  assert (HB : forall sr w, pda_wrules P sr w <-> user_wrules nlab us sr w) by (apply build_wrules; auto).
  destruct (pre_short_spec P (build_wf _ _ W) ptop oob A0 PT OK NI ZI (built_nonneg _ _ W NN)) as (fuel0 & A & E1 & E2 & HA); auto.
  { intros q Hq Hf. destruct (AE q Hq Hf) as [H|H]; auto. right. intros p id r ls Hr <-. apply get_rule_at, nth_error_In in Hr.
    destruct (proj1 (build_keys _ _ W p r) (ex_intro _ ls Hr)) as (u & Hu & _ & <-). auto. }
  split.
  - intros fuel. destruct (E1 fuel) as [K|K]; auto. right. exists A. split; auto. intros p w Hp. destruct (HA p w Hp) as [H1 H2]. split.
    + intros v f Hw Hf. apply (run_weight_iff _ _ _ _ _ HB). eapply H1; eauto.
    + intros v Hv. apply H2. apply (run_weight_iff _ _ _ _ _ HB); auto.
  - exists fuel0. intros fuel L. rewrite E2 by auto. discriminate.
Qed.
Print Assumptions C31_shortest_automaton_partial.

(** pre_star_accepts<Shortest>(automaton, state, stack) for a stack of one label answers whether the configuration reaches the automaton. *)
Theorem C31_single_label_partial : forall nlab us ptop oob A0 state l, let P := build nlab us in let n := pd_n P in
  Forall (wf_urule nlab) us -> (forall u, In u us -> (0 <= r_w (u_rule u))%Z) -> least_top ptop ->
  pre_ok P (wa_aut A0) -> no_in P (wa_aut A0) -> (forall e, w_of A0 e = 0%Z) ->
  (forall q, q < n -> aut_final (wa_aut A0) q -> (exists l t, aut_edges (wa_aut A0) q l t) \/ (forall u, In u us -> r_to (u_rule u) = q -> r_op (u_rule u) <> POP)) ->
  (forall q, oob q <> None) \/ (forall q l t, aut_edges (wa_aut A0) q l t -> q < n) -> state < n ->
  answers (fun fuel => pre_star_short_config P ptop oob fuel A0 state [l])
    (fun r => fst r = true <-> exists v, run_weight (user_wrules nlab us) (eq (state, [l])) (aut_lang n (wa_aut A0)) v).
Proof.
  intros nlab us ptop oob A0 state l P n W NN PT OK NI ZI AE OB Hs.
  assert (HB : forall sr w, pda_wrules P sr w <-> user_wrules nlab us sr w) by (apply build_wrules; auto).
  destruct (pre_short_config_spec P (build_wf _ _ W) ptop oob A0 state l PT OK NI ZI (built_nonneg _ _ W NN)) as [H1 H2]; auto.
  { intros q Hq Hf. destruct (AE q Hq Hf) as [H|H]; auto. right. intros p id r ls Hr <-. apply get_rule_at, nth_error_In in Hr.
    destruct (proj1 (build_keys _ _ W p r) (ex_intro _ ls Hr)) as (u & Hu & _ & <-). auto. }
  split; auto. intros fuel. destruct (H1 fuel) as [K|(r & K & Hr)]; auto. right. exists r. split; auto. rewrite Hr.
  split; intros [v Hv]; exists v; apply (run_weight_iff _ _ _ _ _ HB); auto.
Qed.
Print Assumptions C31_single_label_partial.

(** Runs, reduced to what can be observed: the edges with their weights and traces; the verdict and what the product reports. *)
Definition edges_of (A : waut) : list (nat * option nat * nat * Z * trace) :=
  map (fun et => (e_src (fst et), e_lab (fst et), e_dst (fst et), w_of A (fst et), snd et)) (a_edges (wa_aut A)).
Definition run_full (oob : nat -> option bool) (nlab : nat) (us : list urule) (A : waut) :=
  match pre_star_short_full (build nlab us) (fun _ => first_least) oob 100 A with Some (Some A') => done (edges_of A') | Some None => Some None | None => None end.
Definition run_only (oob : nat -> option bool) (nlab : nat) (us : list urule) (A : waut) :=
  match pre_star_short_only (build nlab us) (fun _ => first_least) oob 100 A with Some (Some A') => done (edges_of A') | Some None => Some None | None => None end.
Definition run_prod (nlab : nat) (us : list urule) (init fin : waut) : option (option (bool * option (option (apth nat * Z)) * aut)) :=
  let P := build nlab us in
  match new_sinst P (fun _ l => l) init fin with
  | None => None
  | Some J => match pre_star_short P first_least (fun _ => first_least) (fun _ => None) 100 J with
              | Some (Some (b, J')) => done (b, path_shortest (si_prod J'), wa_aut (si_fin J'))
              | Some None => Some None
              | None => None
              end
  end.

(** <0, a> reaches <2, b> in one step of weight 20 and in two steps of weight 1; <3, c d> reaches it by a POP of weight 2 and a step of weight 10. *)
Definition c31_sw p l q m w := mk_urule p (mk_rule q SWAP m w) false [l].
Definition c31_rules : list urule := [c31_sw 0 0 2 1 20%Z; c31_sw 0 0 1 1 1%Z; c31_sw 1 1 2 1 1%Z; mk_urule 3 (mk_rule 4 POP 0 2%Z) false [2]; c31_sw 4 3 2 1 10%Z; c31_sw 4 4 2 1 1%Z].
Definition c31_fin : waut := mk_waut (mk_ex [false; false; false; false; false; true] [(2, 1, 5)]) [].
Definition c31_one : waut := mk_waut (mk_ex [false; false; false; false; false; true] [(0, 0, 5)]) [].
Definition c31_two : waut := mk_waut (mk_ex [false; false; false; false; false; false; true] [(3, 2, 5); (5, 3, 6)]) [].

Lemma c31_n : pd_n (build 5 c31_rules) = 5.
Proof. vm_compute. reflexivity. Qed.
Lemma c31_nonneg : forall u, In u c31_rules -> (0 <= r_w (u_rule u))%Z.
Proof. intros u Hu. cbn in Hu. destruct Hu as [<-|[<-|[<-|[<-|[<-|[<-|[]]]]]]]; cbn; lia. Qed.
Lemma c31_nofinal : forall acc es p, p < 5 -> firstn 5 acc = [false; false; false; false; false] -> ~ aut_final (mk_ex acc es) p.
Proof.
  intros acc es p Hp Ha H. unfold aut_final in H. cbn [mk_ex a_acc] in H. assert (K : nth_error (firstn 5 acc) p = Some true).
  { rewrite <- (firstn_skipn 5 acc) in H. rewrite nth_error_app1 in H; auto. rewrite Ha; auto. }
  rewrite Ha in K. destruct p as [|[|[|[|[|p]]]]]; cbn in K; try discriminate. lia.
Qed.

Example C31_case : answers (fun fuel => pre_star_short_full (build 5 c31_rules) (fun _ => first_least) (fun _ => None) fuel c31_fin) (fun A => forall p w, p < 5 ->
    (forall v f, wpath (aut_edges (wa_aut A)) (fun x y z => w_of A (mk_edge x y z)) p w v f -> aut_final (wa_aut A) f ->
       run_weight (user_wrules 5 c31_rules) (eq (p, w)) (aut_lang 5 (wa_aut c31_fin)) v) /\
    (forall v, run_weight (user_wrules 5 c31_rules) (eq (p, w)) (aut_lang 5 (wa_aut c31_fin)) v ->
       exists f v', wpath (aut_edges (wa_aut A)) (fun x y z => w_of A (mk_edge x y z)) p w v' f /\ aut_final (wa_aut A) f /\ (v' <= v)%Z)).
Proof.
  rewrite <- c31_n. apply (C31_shortest_automaton_partial 5 c31_rules (fun _ => first_least) (fun _ => None) c31_fin).
  - apply wf_urulesb_ok. reflexivity.
  - apply c31_nonneg.
  - apply first_least_ok.
  - apply autb_ok. reflexivity.
  - apply no_inb_ok. reflexivity.
  - apply w_of_nil.
  - intros q Hq H. exfalso. rewrite c31_n in Hq. eapply c31_nofinal; [exact Hq| |exact H]. reflexivity.
  - right. intros q l t H. cbn in H. destruct H as [H|[]]. injection H as <- <- <-. vm_compute. lia.
Qed.
Example C31_run : run_full (fun _ => None) 5 c31_rules c31_fin =
  done [(3, Some 2, 4, 2%Z, TPre 0 None); (4, Some 3, 5, 10%Z, TPre 1 None); (4, Some 4, 5, 1%Z, TPre 0 None); (1, Some 1, 5, 1%Z, TPre 0 None);
        (0, Some 0, 5, 2%Z, TPre 1 None); (2, Some 1, 5, 0%Z, TNull)].
Proof. vm_compute. reflexivity. Qed.

Lemma c31_wreach : forall c v c', wreach (user_wrules 5 c31_rules) c v c' -> (0 <= v)%Z.
Proof. intros c v c' H. induction H; [lia|]. destruct H as (u & Hu & _ & _ & _ & _ & ->). assert (K := c31_nonneg u Hu). lia. Qed.
Lemma c31_word : forall acc p l f q w g, apath (aut_edges (mk_ex acc [(p, l, f)])) q w g -> p <> f -> (w = [] /\ q = g) \/ (q = p /\ w = [l] /\ g = f).
Proof.
  intros acc p l f q w g H N. destruct H as [q|q a q1 w f' He Hp|q q1 w f' He Hp]; auto; right; cbn in He; destruct He as [He|[]]; injection He; intros; subst; try discriminate.
  inversion Hp as [q0 E|q0 b q2 w' f2 He'|q0 q2 w' f2 He']; subst; auto; cbn in He'; destruct He' as [He'|[]]; congruence.
Qed.

(** pre_star_accepts<Shortest>(product) answers false although the second automaton is reachable: the last element of the queue is an
   outdated one, step() returns early (244-245), and the final call of the callback (323-325) is left out. *)
Theorem C31_verdict_refuted : exists nlab us init fin, let P := build nlab us in let n := pd_n P in
  Forall (wf_urule nlab) us /\ (forall u, In u us -> (0 <= r_w (u_rule u))%Z) /\
  pre_ok P (wa_aut init) /\ no_in P (wa_aut init) /\ pre_ok P (wa_aut fin) /\ no_in P (wa_aut fin) /\
  (forall e, w_of init e = 0%Z) /\ (forall e, w_of fin e = 0%Z) /\
  (forall p, p < n -> ~ aut_final (wa_aut init) p) /\ (forall p, p < n -> ~ aut_final (wa_aut fin) p) /\
  run_weight (user_wrules nlab us) (aut_lang n (wa_aut init)) (aut_lang n (wa_aut fin)) 12%Z /\
  exists o A, run_prod nlab us init fin = done (false, o, A).
Proof.
  exists 5, c31_rules, c31_two, c31_fin. cbv zeta. rewrite c31_n.
  split; [apply wf_urulesb_ok; reflexivity|]. split; [apply c31_nonneg|].
  split; [apply autb_ok; reflexivity|]. split; [apply no_inb_ok; reflexivity|]. split; [apply autb_ok; reflexivity|]. split; [apply no_inb_ok; reflexivity|].
  split; [apply w_of_nil|]. split; [apply w_of_nil|]. split; [intros p Hp; apply c31_nofinal; auto|]. split; [intros p Hp; apply c31_nofinal; auto|]. split.
  - exists (3, [2; 3]), (2, [1]). split; [|split].
    + split; [cbn; lia|]. exists 6. split; [|reflexivity]. eapply ap_lab; [cbn; auto|]. eapply ap_lab; [cbn; auto|]. constructor.
    + split; [cbn; lia|]. exists 5. split; [|reflexivity]. eapply ap_lab; [cbn; auto|]. constructor.
    + change 12%Z with (2 + (10 + 0))%Z. eapply wr_step with (r := mk_srule 3 2 4 SPop) (c2 := (4, [3])).
      * exists (mk_urule 3 (mk_rule 4 POP 0 2%Z) false [2]). cbn. ands; auto 12.
      * apply (step_by_intro (mk_srule 3 2 4 SPop) [3]).
      * eapply wr_step with (r := mk_srule 4 3 2 (SSwap 1)) (c2 := (2, [1])); [|apply (step_by_intro (mk_srule 4 3 2 (SSwap 1)) [])|apply wr_refl].
        exists (c31_sw 4 3 2 1 10%Z). cbn. ands; auto 12.
  - eexists. eexists. vm_compute. reflexivity.
Qed.
Print Assumptions C31_verdict_refuted.
(** Without the rule of weight 20 there is no outdated element and the verdict is right. *)
Example C31_verdict_case : exists p A, run_prod 5 (tl c31_rules) c31_two c31_fin = done (true, Some (Some (p, 12%Z)), A).
Proof. eexists. eexists. vm_compute. reflexivity. Qed.

(** The weight reported is the least one, but the trace is not that of a shortest run: lines 197-198 lower the weight of an edge and keep its
   trace. Here the trace is the step of weight 20, while the least weight is 2. *)
Theorem C31_trace_refuted : exists nlab us init fin p A, let P := build nlab us in let n := pd_n P in
  Forall (wf_urule nlab) us /\ (forall u, In u us -> (0 <= r_w (u_rule u))%Z) /\
  pre_ok P (wa_aut init) /\ no_in P (wa_aut init) /\ pre_ok P (wa_aut fin) /\ no_in P (wa_aut fin) /\
  (forall e, w_of init e = 0%Z) /\ (forall e, w_of fin e = 0%Z) /\
  least_weight (user_wrules nlab us) (aut_lang n (wa_aut init)) (aut_lang n (wa_aut fin)) 2%Z /\
  run_prod nlab us init fin = done (true, Some (Some (p, 2%Z)), A) /\
  exists c1 c2, get_trace_path P A 100 p = done [c1; c2] /\ forall sr w, user_wrules nlab us sr w -> step_by sr c1 c2 -> w = 20%Z.
Proof.
  exists 5, c31_rules, c31_one, c31_fin. eexists. eexists. cbv zeta. rewrite c31_n.
  split; [apply wf_urulesb_ok; reflexivity|]. split; [apply c31_nonneg|].
  split; [apply autb_ok; reflexivity|]. split; [apply no_inb_ok; reflexivity|]. split; [apply autb_ok; reflexivity|]. split; [apply no_inb_ok; reflexivity|].
  split; [apply w_of_nil|]. split; [apply w_of_nil|]. split; [|split; [vm_compute; reflexivity|]].
  - split.
    + exists (0, [0]), (2, [1]). split; [|split].
      * split; [cbn; lia|]. exists 5. split; [|reflexivity]. eapply ap_lab; [cbn; auto|]. constructor.
      * split; [cbn; lia|]. exists 5. split; [|reflexivity]. eapply ap_lab; [cbn; auto|]. constructor.
      * change 2%Z with (1 + (1 + 0))%Z. eapply wr_step with (r := mk_srule 0 0 1 (SSwap 1)) (c2 := (1, [1])).
        -- exists (c31_sw 0 0 1 1 1%Z). cbn. ands; auto 12.
        -- apply (step_by_intro (mk_srule 0 0 1 (SSwap 1)) []).
        -- eapply wr_step with (r := mk_srule 1 1 2 (SSwap 1)) (c2 := (2, [1])); [|apply (step_by_intro (mk_srule 1 1 2 (SSwap 1)) [])|apply wr_refl].
           exists (c31_sw 1 1 2 1 1%Z). cbn. ands; auto 12.
    + intros v (c1 & c2 & (L1 & f1 & H1 & A1) & (L2 & f2 & H2 & A2) & H). destruct c1 as [q1 w1], c2 as [q2 w2]. cbn [fst snd] in *.
      destruct (c31_word _ _ _ _ _ _ _ H1) as [[-> ->]|[-> [-> ->]]]; [discriminate|exfalso; eapply c31_nofinal; [exact L1| |exact A1]; reflexivity|].
      destruct (c31_word _ _ _ _ _ _ _ H2) as [[-> ->]|[-> [-> ->]]]; [discriminate|exfalso; eapply c31_nofinal; [exact L2| |exact A2]; reflexivity|].
      inversion H as [c|c3 sr c4 c5 rw v' HR HS HT]; subst. inversion HS as [w0 E1 E2]; subst. destruct HR as (u & Hu & U1 & U2 & U3 & U4 & ->). cbn in Hu.
      assert (K := c31_wreach _ _ _ HT). destruct Hu as [<-|[<-|[<-|[<-|[<-|[<-|[]]]]]]]; cbn in U1, U2, U3; try congruence; cbn [c31_sw u_rule r_w]; [lia|].
      rewrite U2 in HT. inversion HT as [c|c3 sr2 c4 c5 rw2 v2 HR2 HS2 HT2]; subst. assert (K2 := c31_wreach _ _ _ HT2). inversion HS2 as [w2 E3 E4]; subst.
      destruct HR2 as (u & Hu & V1 & V2 & V3 & V4 & ->). cbn in Hu. destruct Hu as [<-|[<-|[<-|[<-|[<-|[<-|[]]]]]]]; cbn in V1; try congruence; cbn [c31_sw u_rule r_w]; lia.
  - exists (0, [0]), (2, [1]). split; [vm_compute; reflexivity|]. intros sr w (u & Hu & U1 & U2 & U3 & U4 & ->) S. cbn in Hu.
    inversion S as [w0 E1 E2]; subst. destruct Hu as [<-|[<-|[<-|[<-|[<-|[<-|[]]]]]]]; cbn in U1, U2; try congruence; reflexivity.
Qed.
Print Assumptions C31_trace_refuted.

(** The query for one configuration; for <0, a> the answer is found, for <4, a> there is no run. *)
Definition run_config (state : nat) (stack : list nat) :=
  match pre_star_short_config (build 5 c31_rules) (fun _ => first_least) (fun _ => None) 100 c31_fin state stack with
  | Some (Some (b, _)) => done b | Some None => Some None | None => None end.
Example C31_single_label_case : answers (fun fuel => pre_star_short_config (build 5 c31_rules) (fun _ => first_least) (fun _ => None) fuel c31_fin 0 [0])
    (fun r => fst r = true <-> exists v, run_weight (user_wrules 5 c31_rules) (eq (0, [0])) (aut_lang 5 (wa_aut c31_fin)) v) /\
  run_config 0 [0] = done true /\ run_config 4 [0] = done false.
Proof.
  split; [|split; vm_compute; reflexivity]. rewrite <- c31_n. apply (C31_single_label_partial 5 c31_rules (fun _ => first_least) (fun _ => None) c31_fin 0 0).
  - apply wf_urulesb_ok. reflexivity.
  - apply c31_nonneg.
  - apply first_least_ok.
  - apply autb_ok. reflexivity.
  - apply no_inb_ok. reflexivity.
  - apply w_of_nil.
  - intros q Hq H. exfalso. rewrite c31_n in Hq. eapply c31_nofinal; [exact Hq| |exact H]. reflexivity.
  - right. intros q l t H. cbn in H. destruct H as [H|[]]. injection H as <- <- <-. vm_compute. lia.
  - vm_compute. lia.
Qed.

(** For longer stacks the query runs without early termination. Then get_pautomata_edge_weight (223-228) gives 0 for the weight of the popped
   edge, lines 244-245 take every element with a positive weight for an outdated one, and the automaton is incomplete: the answer is false
   although <3, c d> has a run of weight 12. The same holds of pre_star<Shortest>(automaton) with its default arguments. *)
Lemma c31_run12 : wreach (user_wrules 5 c31_rules) (3, [2; 3]) 12%Z (2, [1]).
Proof.
  change 12%Z with (2 + (10 + 0))%Z. eapply wr_step with (r := mk_srule 3 2 4 SPop) (c2 := (4, [3])).
  - exists (mk_urule 3 (mk_rule 4 POP 0 2%Z) false [2]). cbn. ands; auto 12.
  - apply (step_by_intro (mk_srule 3 2 4 SPop) [3]).
  - eapply wr_step with (r := mk_srule 4 3 2 (SSwap 1)) (c2 := (2, [1])); [|apply (step_by_intro (mk_srule 4 3 2 (SSwap 1)) [])|apply wr_refl].
    exists (c31_sw 4 3 2 1 10%Z). cbn. ands; auto 12.
Qed.
Theorem C31_config_refuted : exists nlab us fin state stack, let P := build nlab us in let n := pd_n P in
  Forall (wf_urule nlab) us /\ (forall u, In u us -> (0 <= r_w (u_rule u))%Z) /\
  pre_ok P (wa_aut fin) /\ no_in P (wa_aut fin) /\ (forall e, w_of fin e = 0%Z) /\ (forall p, p < n -> ~ aut_final (wa_aut fin) p) /\
  run_weight (user_wrules nlab us) (eq (state, stack)) (aut_lang n (wa_aut fin)) 12%Z /\
  exists A, (forall fuel, 20 <= fuel -> pre_star_short_config P (fun _ => first_least) (fun _ => None) fuel fin state stack = done (false, A)) /\
    (forall fuel, 20 <= fuel -> pre_star_short_only P (fun _ => first_least) (fun _ => None) fuel fin = done A).
Proof.
  exists 5, c31_rules, c31_fin, 3, [2; 3]. cbv zeta. rewrite c31_n.
  split; [apply wf_urulesb_ok; reflexivity|]. split; [apply c31_nonneg|].
  split; [apply autb_ok; reflexivity|]. split; [apply no_inb_ok; reflexivity|]. split; [apply w_of_nil|]. split; [intros p Hp; apply c31_nofinal; auto|]. split.
  - exists (3, [2; 3]), (2, [1]). split; [reflexivity|]. split; [|apply c31_run12]. split; [cbn; lia|]. exists 5. split; [|reflexivity]. eapply ap_lab; [cbn; auto|]. constructor.
  - eexists. split; intros fuel Hf; do 20 (destruct fuel as [|fuel]; [lia|]); clear Hf; vm_compute; reflexivity.
Qed.
Print Assumptions C31_config_refuted.

(** Line 242 reads _popped at an automaton state, but the vector has one element for each PDA state (108): if the given automaton has an edge
   that leaves another state, that is if it accepts some stack of two labels, the read is out of range. *)
Theorem C31_out_of_range_refuted : exists nlab us fin, let P := build nlab us in let n := pd_n P in
  Forall (wf_urule nlab) us /\ (forall u, In u us -> (0 <= r_w (u_rule u))%Z) /\
  pre_ok P (wa_aut fin) /\ no_in P (wa_aut fin) /\ (forall e, w_of fin e = 0%Z) /\ (forall p, p < n -> ~ aut_final (wa_aut fin) p) /\
  (forall fuel, 20 <= fuel -> pre_star_short_full P (fun _ => first_least) (fun _ => None) fuel fin = None) /\
  (forall fuel, 20 <= fuel -> pre_star_short_only P (fun _ => first_least) (fun _ => None) fuel fin = None).
Proof.
  exists 5, c31_rules, c31_two. cbv zeta. rewrite c31_n.
  split; [apply wf_urulesb_ok; reflexivity|]. split; [apply c31_nonneg|].
  split; [apply autb_ok; reflexivity|]. split; [apply no_inb_ok; reflexivity|]. split; [apply w_of_nil|]. split; [intros p Hp; apply c31_nofinal; auto|].
  split; intros fuel Hf; do 20 (destruct fuel as [|fuel]; [lia|]); clear Hf; vm_compute; reflexivity.
Qed.
Print Assumptions C31_out_of_range_refuted.

(** An accepting PDA state without edges and a POP rule to it: the assertions 188-189 on _minpath fail in the constructor. *)
Theorem C31_empty_stack_refuted : exists nlab us fin, let P := build nlab us in let n := pd_n P in
  Forall (wf_urule nlab) us /\ (forall u, In u us -> (0 <= r_w (u_rule u))%Z) /\
  pre_ok P (wa_aut fin) /\ no_in P (wa_aut fin) /\ (forall e, w_of fin e = 0%Z) /\
  run_weight (user_wrules nlab us) (eq (0, [0])) (aut_lang n (wa_aut fin)) 3%Z /\
  (forall ptop oob fuel, pre_star_short_full P ptop oob fuel fin = None /\ pre_star_short_only P ptop oob fuel fin = None).
Proof.
  exists 1, [mk_urule 0 (mk_rule 1 POP 0 3%Z) false [0]], (mk_waut (mk_ex [false; true] []) []). cbv zeta.
  split; [apply wf_urulesb_ok; reflexivity|]. split; [intros u [<-|[]]; cbn; lia|].
  split; [apply autb_ok; reflexivity|]. split; [apply no_inb_ok; reflexivity|]. split; [apply w_of_nil|]. split.
  - exists (0, [0]), (1, []). split; [reflexivity|]. split.
    + split; [vm_compute; lia|]. exists 1. split; [constructor|reflexivity].
    + change 3%Z with (3 + 0)%Z. eapply wr_step with (r := mk_srule 0 0 1 SPop) (c2 := (1, [])); [|apply (step_by_intro (mk_srule 0 0 1 SPop) [])|apply wr_refl].
      exists (mk_urule 0 (mk_rule 1 POP 0 3%Z) false [0]). cbn. ands; auto.
  - intros ptop oob fuel. split; reflexivity.
Qed.
Print Assumptions C31_empty_stack_refuted.

(** If both automata accept a common configuration, initialize_product (called without the trace type) answers true without storing the weights
   of the product, and reading the path with find_path<Shortest> uses a weight that was never written. *)
Theorem C31_overlap_refuted : exists nlab us init fin, let P := build nlab us in let n := pd_n P in
  Forall (wf_urule nlab) us /\ (forall u, In u us -> (0 <= r_w (u_rule u))%Z) /\
  pre_ok P (wa_aut init) /\ no_in P (wa_aut init) /\ pre_ok P (wa_aut fin) /\ no_in P (wa_aut fin) /\
  (forall e, w_of init e = 0%Z) /\ (forall e, w_of fin e = 0%Z) /\
  (forall p, p < n -> ~ aut_final (wa_aut init) p) /\ (forall p, p < n -> ~ aut_final (wa_aut fin) p) /\
  run_weight (user_wrules nlab us) (aut_lang n (wa_aut init)) (aut_lang n (wa_aut fin)) 0%Z /\
  exists A, run_prod nlab us init fin = done (true, None, A).
Proof.
  exists 5, c31_rules, c31_fin, c31_fin. cbv zeta. rewrite c31_n.
  split; [apply wf_urulesb_ok; reflexivity|]. split; [apply c31_nonneg|].
  split; [apply autb_ok; reflexivity|]. split; [apply no_inb_ok; reflexivity|]. split; [apply autb_ok; reflexivity|]. split; [apply no_inb_ok; reflexivity|].
  split; [apply w_of_nil|]. split; [apply w_of_nil|]. split; [intros p Hp; apply c31_nofinal; auto|]. split; [intros p Hp; apply c31_nofinal; auto|]. split.
  - assert (L : aut_lang 5 (wa_aut c31_fin) (2, [1])). { split; [cbn; lia|]. exists 5. split; [|reflexivity]. eapply ap_lab; [cbn; auto|]. constructor. }
    exists (2, [1]), (2, [1]). split; auto. split; auto. constructor.
  - eexists. vm_compute. reflexivity.
Qed.
Print Assumptions C31_overlap_refuted.

(** Unlike post* (C30_negative_rejected), pre* does not reject negative weights: with a loop of negative weight it does not end. *)
Definition c31_loop : list urule := [mk_urule 0 (mk_rule 0 NOOP 0 (-1)%Z) false [0]].
Definition c31_loop_fin : waut := mk_waut (mk_ex [false; true] [(0, 0, 1)]) [].
Lemma c31_loop_run : forall fuel ww pops key tr rel, k_run (build 1 c31_loop) unit (Some cb_never) (fun _ => first_least) (fun _ => None) fuel
  (mk_pk (mk_waut (wa_aut c31_loop_fin) ((mk_edge 0 (Some 0) 1, key) :: ww)) [(key, (mk_edge 0 (Some 0) 1, tr))] rel [] [true] [Some 0%Z; Some 0%Z] false pops tt) = Some None.
Proof.
  induction fuel as [|fuel IH]; intros ww pops key tr rel; [reflexivity|]. cbn [k_run k_ws k_found].
  assert (E : k_step (build 1 c31_loop) unit (Some cb_never) (fun _ => first_least) (fun _ => None)
    (mk_pk (mk_waut (wa_aut c31_loop_fin) ((mk_edge 0 (Some 0) 1, key) :: ww)) [(key, (mk_edge 0 (Some 0) 1, tr))] rel [] [true] [Some 0%Z; Some 0%Z] false pops tt) =
    Some (mk_pk (mk_waut (wa_aut c31_loop_fin) ((mk_edge 0 (Some 0) 1, (key + -1)%Z) :: (mk_edge 0 (Some 0) 1, key) :: ww))
       [((key + -1)%Z, (mk_edge 0 (Some 0) 1, TPre 0 None))] (mk_edge 0 (Some 0) 1 :: rel) [] [true] [Some 0%Z; Some 0%Z] false (S pops) tt)).
  { assert (L1 : Z.ltb (key + 0) key = false) by (apply Z.ltb_ge; lia). assert (L2 : Z.ltb (key + -1) key = true) by (apply Z.ltb_lt; lia).
    cbv -[Z.add Z.ltb]. rewrite L1. cbv -[Z.add Z.ltb]. rewrite L2. cbv -[Z.add Z.ltb]. rewrite Z.add_0_r. reflexivity. }
  rewrite E. apply IH.
Qed.
Theorem C31_negative_refuted : exists nlab us fin, let P := build nlab us in
  Forall (wf_urule nlab) us /\ pre_ok P (wa_aut fin) /\ no_in P (wa_aut fin) /\ (forall e, w_of fin e = 0%Z) /\
  (forall fuel, pre_star_short_full P (fun _ => first_least) (fun _ => None) fuel fin = Some None).
Proof.
  exists 1, c31_loop, c31_loop_fin. cbv zeta. split; [apply wf_urulesb_ok; reflexivity|]. split; [apply autb_ok; reflexivity|]. split; [apply no_inb_ok; reflexivity|].
  split; [apply w_of_nil|]. intros fuel. unfold pre_star_short_full. destruct (k_init (build 1 c31_loop) unit c31_loop_fin tt) as [st|] eqn:E; [|discriminate E].
  cbn [obind]. destruct fuel as [|fuel]; [vm_compute in E; injection E as <-; reflexivity|].
  assert (E2 : k_step (build 1 c31_loop) unit (Some cb_never) (fun _ => first_least) (fun _ => None) st =
    Some (mk_pk (mk_waut (wa_aut c31_loop_fin) [(mk_edge 0 (Some 0) 1, (0 + -1)%Z)]) [((0 + -1)%Z, (mk_edge 0 (Some 0) 1, TPre 0 None))]
      [mk_edge 0 (Some 0) 1] [] [true] [Some 0%Z; Some 0%Z] false 1 tt)) by (vm_compute in E; injection E as <-; vm_compute; reflexivity).
  cbn [k_run]. rewrite E2. assert (E3 : k_found st = false /\ k_ws st <> []) by (vm_compute in E; injection E as <-; split; [reflexivity|discriminate]).
  destruct E3 as [F N]. rewrite F. destruct (k_ws st); [congruence|]. rewrite (c31_loop_run fuel [] 1 (0 + -1)%Z (TPre 0 None) [mk_edge 0 (Some 0) 1]). reflexivity.
Qed.
Print Assumptions C31_negative_refuted.
