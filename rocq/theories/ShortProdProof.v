(** The product automaton of the search for shortest traces: Dijkstra's invariant. *)
From Coq Require Import List Arith Lia Bool ZArith Permutation Sorted.
From Verif Require Import Base BaseFacts Spec SpecFacts PdaModel AutModel AutProof SolverModel QueryModel QueryProof ProductModel ProductProof
  UtilModel UtilProof ShortModel PostStarLang TraceModel TraceProof.
Import ListNotations.

Definition zcomp (a b : Z) : bool := Z.ltb b a.

(** A weighted joint move. *)
Definition jstep (EF ES : edgeset) (wF wS : edge -> Z) (a b : nat) (l : option nat) (v : Z) (a' b' : nat) : Prop :=
  match l with
  | Some x => EF a (Some x) a' /\ ES b (Some x) b' /\ v = wF (mk_edge a (Some x) a')
  | None => (EF a None a' /\ b' = b /\ v = wF (mk_edge a None a')) \/ (ES b None b' /\ a' = a /\ v = wS (mk_edge b None b'))
  end.
Inductive jpath (EF ES : edgeset) (wF wS : edge -> Z) (a b : nat) : list nat -> Z -> nat -> nat -> Prop :=
| jp_nil : jpath EF ES wF wS a b [] 0%Z a b
| jp_snoc : forall w v a1 b1 l v1 a2 b2, jpath EF ES wF wS a b w v a1 b1 -> jstep EF ES wF wS a1 b1 l v1 a2 b2 ->
    jpath EF ES wF wS a b (w ++ olist l) (v + v1)%Z a2 b2.

Lemma jstep_joint : forall EF ES wF wS a b l v a' b', jstep EF ES wF wS a b l v a' b' -> joint EF ES a b l a' b'.
Proof. intros EF ES wF wS a b [x|] v a' b' H; cbn in *; tauto. Qed.
Lemma jstep_mono : forall (EF ES EF' ES' : edgeset) wF wS wF' wS' a b l v a' b', jstep EF ES wF wS a b l v a' b' ->
  (forall x y z, EF x y z -> EF' x y z /\ wF' (mk_edge x y z) = wF (mk_edge x y z)) ->
  (forall x y z, ES x y z -> ES' x y z /\ wS' (mk_edge x y z) = wS (mk_edge x y z)) -> jstep EF' ES' wF' wS' a b l v a' b'.
Proof.
  intros EF ES EF' ES' wF wS wF' wS' a b [x|] v a' b' H H1 H2; cbn in *.
  - destruct H as (K1 & K2 & ->). destruct (H1 _ _ _ K1). destruct (H2 _ _ _ K2). ands; auto.
  - destruct H as [(K1 & K2 & ->)|(K1 & K2 & ->)]; [left; destruct (H1 _ _ _ K1)|right; destruct (H2 _ _ _ K1)]; ands; auto.
Qed.

Lemma b_find_In : forall q l v, b_find q l = Some v -> In (q, v) l.
Proof. intros q l v; induction l as [|[q' v'] l IH]; cbn; [discriminate|]. destruct (Nat.eqb_spec q' q) as [->|]; [intros H; injection H as ->; auto|auto]. Qed.

Lemma accepting_ids_spec : forall A q, In q (accepting_ids A) <-> aut_final A q.
Proof.
  intros A q. unfold accepting_ids, aut_final. rewrite in_map_iff. split.
  - intros [[q' b] [<- H]]. apply filter_In in H. destruct H as [H1 H2]. cbn in *. subst b. apply enum_In in H1. auto.
  - intros H. exists (q, true). split; auto. apply filter_In. split; auto. apply enum_In. auto.
Qed.

Section Short.
  Variable n : nat.
  Variable top : list (Z * nat) -> nat.
  Hypothesis TM : top_max Z zcomp top.
  Hypothesis TP : top_push Z top.
  Notation pair := (pr_pair n).
  Notation psz := psz.

  Definition dist (sp : sprod) (q : nat) : option Z := if Nat.ltb q n then Some 0%Z else best sp q.

  Inductive bchain (bs : list (nat * (nat * option nat * Z))) : nat -> list nat -> Prop :=
  | bc_nil : forall q, q < n -> bchain bs q [q]
  | bc_cons : forall q f l w k, b_find q bs = Some (f, l, w) -> bchain bs f k -> bchain bs q (q :: k).

  Definition waits (s : sploop) (u : nat) : Prop := exists d, dist (fst s) u = Some d /\ In (d, u) (pq (snd s)).

  Lemma bc_upd : forall bs to f l w, (forall k, bchain bs f k -> ~ In to k) -> forall u k, bchain bs u k -> ~ In to k -> bchain ((to, (f, l, w)) :: bs) u k.
  Proof.
    intros bs to f l w Hf u k H. induction H as [q Hq|q f' l' w' k Hb Hc IH]; intros Hn.
    - apply bc_nil; auto.
    - eapply bc_cons; [|apply IH; intros K; apply Hn; right; auto]. cbn. destruct (Nat.eqb_spec to q) as [->|]; [exfalso; apply Hn; left; auto|exact Hb].
  Qed.

  Section Comp.
  Variables F S : waut.
  Let EF := aut_edges (wa_aut F).
  Let ES := aut_edges (wa_aut S).
  Let wF := w_of F.
  Let wS := w_of S.
  Hypothesis WF : aut_wf (wa_aut F).
  Hypothesis WS : aut_wf (wa_aut S).
  Hypothesis HF : n <= a_size (wa_aut F).
  Hypothesis HS : n <= a_size (wa_aut S).
  Hypothesis NF : forall e, (0 <= wF e)%Z.
  Hypothesis NS : forall e, (0 <= wS e)%Z.
  Hypothesis NA : forall p, p < n -> aut_final (wa_aut F) p -> aut_final (wa_aut S) p -> False.

  Notation pbase := (pbase n (wa_aut F) (wa_aut S) false).
  Notation pbase0 := (pbase0 n (wa_aut F) (wa_aut S) false).
  Notation JS := (jstep EF ES wF wS).

  Definition relaxed1 (sp : sprod) (u : nat) (l : option nat) (v : Z) (a' b' : nat) : Prop :=
    exists id' d d', pair (sp_pr sp) id' = Some (a', b') /\ aut_edges (pr_aut (sp_pr sp)) u l id' /\ dist sp u = Some d /\ dist sp id' = Some d' /\ (d' <= d + v)%Z.
  (** All moves of [u] whose edge in the first automaton is in [E] are relaxed. *)
  Definition clean (E : edgeset) (sp : sprod) (u : nat) : Prop := forall a b l v a' b', pair (sp_pr sp) u = Some (a, b) ->
    jstep E ES wF wS a b l v a' b' -> relaxed1 sp u l v a' b'.

  Record sbase (sp : sprod) : Prop := {
    sb_base : pbase (sp_pr sp);
    sb_best : forall id, n <= id < psz (sp_pr sp) -> exists x, b_find id (sp_best sp) = Some x;
    sb_back : forall id f l w, b_find id (sp_best sp) = Some (f, l, w) -> n <= id < psz (sp_pr sp) /\ exists d v a b a' b',
      dist sp f = Some d /\ aut_edges (pr_aut (sp_pr sp)) f l id /\ pair (sp_pr sp) f = Some (a, b) /\ pair (sp_pr sp) id = Some (a', b') /\
      JS a b l v a' b' /\ (d + v <= w)%Z;
    sb_chain : forall id, id < psz (sp_pr sp) -> exists k, bchain (sp_best sp) id k }.

  Definition sle (sp sp' : sprod) : Prop := ext (sp_pr sp) (sp_pr sp') /\ psz (sp_pr sp) <= psz (sp_pr sp') /\
    forall q d, dist sp q = Some d -> exists d', dist sp' q = Some d' /\ (d' <= d)%Z.
  Definition lle (s s' : sploop) : Prop := sle (fst s) (fst s') /\ seen (snd s') = seen (snd s) /\
    (forall u, waits s u \/ (dist (fst s) u = None /\ dist (fst s') u <> None) -> waits s' u) /\
    (forall u d, dist (fst s) u = Some d -> dist (fst s') u = Some d \/ (~ In u (seen (snd s)) /\ waits s' u)).

  Lemma sle_refl : forall sp, sle sp sp.
  Proof. intros. split; [apply ext_refl|]. split; auto. intros q d H. exists d. split; auto. lia. Qed.
  Lemma sle_trans : forall a b c, sle a b -> sle b c -> sle a c.
  Proof.
    intros a b c (H1 & H2 & H3) (K1 & K2 & K3). split; [eapply ext_trans; eauto|]. split; [lia|]. intros q d H.
    destruct (H3 q d H) as (d1 & E1 & L1). destruct (K3 q d1 E1) as (d2 & E2 & L2). exists d2. split; auto. lia.
  Qed.
  Lemma lle_refl : forall s, lle s s.
  Proof. intros. split; [apply sle_refl|]. ands; auto. intros u [H|[H K]]; [auto|congruence]. Qed.
  Lemma lle_trans : forall a b c, lle a b -> lle b c -> lle a c.
  Proof.
    intros a b c (H1 & H2 & H3 & H4) (K1 & K2 & K3 & K4). split; [eapply sle_trans; eauto|]. ands; [congruence| |].
    { intros u [H|[N H]]; [auto|]. apply K3. destruct (dist (fst b) u) eqn:Eb; [left; apply H3; right; split; congruence|auto]. }
    intros u d H. destruct (H4 u d H) as [E|[E1 E2]]; [|auto]. destruct (K4 u d E) as [E'|[E1 E2]]; auto. right. split; auto. congruence.
  Qed.

  Lemma ext_relaxed : forall s s' u l v a' b', lle s s' -> relaxed1 (fst s) u l v a' b' -> relaxed1 (fst s') u l v a' b' \/ (~ In u (seen (snd s)) /\ waits s' u).
  Proof.
    intros s s' u l v a' b' (H1 & H2 & H3 & H4) (id' & d & d' & K1 & K2 & K3 & K4 & K5). destruct (H4 u d K3) as [E|E]; auto. left.
    destruct H1 as (X & _ & Y). destruct (Y id' d' K4) as (d2 & E2 & L2). exists id', d, d2. ands; auto.
    - eapply ext_pair; eauto.
    - apply X; auto.
    - lia.
  Qed.

  Lemma dist_ge : forall sp u d, sbase sp -> dist sp u = Some d -> (0 <= d)%Z.
  Proof.
    intros sp u d B H. assert (L : u < psz (sp_pr sp)).
    { unfold dist in H. destruct (Nat.ltb_spec u n).
      - assert (E := pb_size _ _ _ _ _ (pb_0 _ _ _ _ _ (sb_base _ B))). lia.
      - unfold best in H. destruct (b_find u (sp_best sp)) as [[[f l] w]|] eqn:E; [|discriminate]. apply (sb_back _ B) in E. lia. }
    destruct (sb_chain _ B u L) as [k C]. revert d H. clear L. induction C as [q Hq|q f l w k Hb Hc IH]; intros d H.
    - unfold dist in H. apply Nat.ltb_lt in Hq. rewrite Hq in H. injection H as <-. lia.
    - destruct (sb_back _ B _ _ _ _ Hb) as (Hr & d0 & v & a & b & a' & b' & D0 & _ & _ & _ & J & L).
      specialize (IH _ D0). unfold dist in H. destruct (Nat.ltb_spec q n); [lia|]. unfold best in H. rewrite Hb in H. injection H as <-.
      assert (0 <= v)%Z; [|lia]. destruct l; cbn in J; [destruct J as (_ & _ & ->); apply NF|].
      destruct J as [(_ & _ & ->)|(_ & _ & ->)]; auto.
  Qed.

  Lemma dist_ex : forall sp u, sbase sp -> u < psz (sp_pr sp) <-> exists d, dist sp u = Some d.
  Proof.
    intros sp u B. unfold dist. destruct (Nat.ltb_spec u n) as [L|L].
    - split; [eauto|]. intros _. assert (E := pb_size _ _ _ _ _ (pb_0 _ _ _ _ _ (sb_base _ B))). lia.
    - unfold best. split.
      + intros H. destruct (sb_best _ B u) as [[[f l] w] E]; [auto|]. rewrite E. eauto.
      + intros [d H]. destruct (b_find u (sp_best sp)) as [[[f l] w]|] eqn:E; [|discriminate]. apply (sb_back _ B) in E. lia.
  Qed.

  Lemma JS_nonneg : forall a b l v a' b', JS a b l v a' b' -> (0 <= v)%Z.
  Proof. intros a b l v a' b' J. destruct l; cbn in J; [destruct J as (_ & _ & ->); apply NF|]. destruct J as [(_ & _ & ->)|(_ & _ & ->)]; auto. Qed.

  Lemma chain_le : forall sp, sbase sp -> forall q k, bchain (sp_best sp) q k -> forall t d dt, In t k -> dist sp q = Some d -> dist sp t = Some dt -> (dt <= d)%Z.
  Proof.
    intros sp B q k C. induction C as [q Hq|q f l w k Hb Hc IH]; intros t d dt Hin Hd Ht.
    - destruct Hin as [<-|[]]. rewrite Hd in Ht. injection Ht as ->. lia.
    - destruct Hin as [<-|Hin]; [rewrite Hd in Ht; injection Ht as ->; lia|].
      destruct (sb_back _ B _ _ _ _ Hb) as (Hr & d0 & v & a & b & a' & b' & D0 & _ & _ & _ & J & L).
      specialize (IH t d0 dt Hin D0 Ht). apply JS_nonneg in J. unfold dist in Hd. destruct (Nat.ltb_spec q n); [lia|]. unfold best in Hd. rewrite Hb in Hd.
      injection Hd as <-. lia.
  Qed.

  (** *** Acceptance *)
  Lemma min_state_spec : forall sp l cur, (forall q, In q l -> exists d, best sp q = Some d) ->
    exists m, min_state sp cur l = Some m /\ (snd m <= snd cur)%Z /\ (m = cur \/ In (fst m) l /\ best sp (fst m) = Some (snd m)) /\
      forall q d, In q l -> best sp q = Some d -> (snd m <= d)%Z.
  Proof.
    intros sp l; induction l as [|q l IH]; intros cur H; cbn [min_state].
    - exists cur. ands; auto; try lia. intros q d [].
    - destruct (H q (or_introl eq_refl)) as [d Hd]. rewrite Hd. cbn [obind].
      destruct (IH (if Z.ltb d (snd cur) then (q, d) else cur)) as (m & E & L & C & M). { intros; apply H; right; auto. }
      exists m. split; auto. assert (Q : (snd m <= d)%Z /\ (snd m <= snd cur)%Z) by (destruct (Z.ltb_spec d (snd cur)); cbn in L; lia). ands; try tauto.
      + destruct C as [->|[C1 C2]]; [|right; split; auto; right; auto]. destruct (Z.ltb d (snd cur)); auto. right. split; auto. left; auto.
      + intros q' d' [<-|Hq] E'; [rewrite Hd in E'; injection E' as <-; tauto|]. eapply M; eauto.
  Qed.

  Lemma final_best : forall sp q, sbase sp -> aut_final (pr_aut (sp_pr sp)) q -> n <= q /\ exists d, best sp q = Some d.
  Proof.
    intros sp q B H. pose proof (pb_0 _ _ _ _ _ (sb_base _ B)) as B0. assert (L : q < psz (sp_pr sp)) by (apply nth_error_lt in H; auto).
    destruct (proj1 (pair_lt n _ _ _ HF HS (sp_pr sp) q B0) L) as [[a b] HP].
    apply (pb_acc _ _ _ _ _ B0 _ _ _ HP) in H. assert (G : n <= q).
    { destruct (Nat.lt_ge_cases q n) as [K|K]; auto. exfalso. unfold pr_pair in HP. apply Nat.ltb_lt in K as K'. rewrite K' in HP. injection HP as <- <-. eapply NA; eauto; tauto. }
    split; auto. destruct (proj1 (dist_ex sp q B) L) as [d Hd]. exists d. unfold dist in Hd. destruct (Nat.ltb_spec q n); [lia|auto].
  Qed.

  Lemma min_accepting_spec : forall sp, sbase sp -> has_accepting (sp_pr sp) = true ->
    exists q d, min_accepting sp = Some (q, d) /\ aut_final (pr_aut (sp_pr sp)) q /\ best sp q = Some d /\
      forall q' d', aut_final (pr_aut (sp_pr sp)) q' -> best sp q' = Some d' -> (d <= d')%Z.
  Proof.
    intros sp B H. apply has_accepting_spec in H. destruct H as [q0 H0]. unfold min_accepting.
    assert (AS := accepting_ids_spec (pr_aut (sp_pr sp))). destruct (accepting_ids (pr_aut (sp_pr sp))) as [|q l].
    { apply AS in H0. destruct H0. }
    assert (Hq : aut_final (pr_aut (sp_pr sp)) q) by (apply AS; left; auto). destruct (final_best sp q B Hq) as [_ [d Hd]]. rewrite Hd. cbn [obind].
    destruct (min_state_spec sp l (q, d)) as ([mq md] & E & L & C & M).
    { intros q' Hq'. apply (final_best sp q' B). apply AS. right; auto. }
    exists mq, md. split; auto. cbn [fst snd] in *. ands.
    - destruct C as [C|[C1 C2]]; [injection C as -> ->; auto|]. apply AS. right; auto.
    - destruct C as [C|[C1 C2]]; [injection C as -> ->; auto|auto].
    - intros q' d' Hf Hb. apply AS in Hf. destruct Hf as [<-|Hf]; [rewrite Hd in Hb; injection Hb as <-; auto|]. eapply M; eauto.
  Qed.

  Definition accepted_within (sp : sprod) (etp : option Z) : Prop := exists q d, aut_final (pr_aut (sp_pr sp)) q /\ best sp q = Some d /\
    match etp with Some z => (d <= z)%Z | None => True end.
  Lemma good_enough_spec : forall sp etp, sbase sp -> exists b, good_enough sp etp = Some b /\ (b = true <-> accepted_within sp etp).
  Proof.
    intros sp etp B. unfold good_enough. destruct (has_accepting (sp_pr sp)) eqn:HA.
    - destruct (min_accepting_spec sp B HA) as (q & d & E & Hf & Hb & M). rewrite E. cbn [obind snd]. eexists; split; [reflexivity|].
      destruct etp as [z|]; [rewrite negb_true_iff, Z.ltb_ge|]; split; auto.
      + intros L. exists q, d. ands; auto.
      + intros (q' & d' & K1 & K2 & K3). specialize (M q' d' K1 K2). lia.
      + intros _. exists q, d. ands; auto.
    - exists false. split; auto. split; [discriminate|]. intros (q & d & K1 & _). exfalso.
      assert (has_accepting (sp_pr sp) = true); [apply has_accepting_spec; eauto|congruence].
  Qed.

  (** *** The loop invariant. [E]: the edges of the first automaton for which clean states are relaxed; [cur]: the state being expanded. *)
  Record pinv (E : edgeset) (sp0 : sprod) (D : Z) (cur : option nat) (s : sploop) : Prop := {
    pi_base : sbase (fst s);
    pi_le : sle sp0 (fst s);
    pi_pq : forall w u, In (w, u) (pq (snd s)) -> (D <= w)%Z /\ exists d, dist (fst s) u = Some d /\ (d <= w)%Z;
    pi_w : forall w u, In (w, u) (pq (snd s)) -> ~ In u (seen (snd s)) -> waits s u;
    pi_seen : forall u, In u (seen (snd s)) -> exists d, dist (fst s) u = Some d /\ (d <= D)%Z;
    pi_nd : NoDup (seen (snd s));
    pi_sc : forall u, In u (seen (snd s)) -> cur <> Some u -> clean E (fst s) u;
    pi_cw : forall u, u < psz (sp_pr (fst s)) -> ~ In u (seen (snd s)) -> clean E (fst s) u \/ waits s u;
    pi_top : pq (snd s) <> [] -> exists x, ps_top top (snd s) = Some x /\ ~ In (snd x) (seen (snd s)) }.

  Definition sfound (sp0 : sprod) (etp : option Z) (sp : sprod) : Prop := sbase sp /\ sle sp0 sp /\ accepted_within sp etp.

  Lemma emplace_top : forall (p : pset Z) w u, (pq p <> [] -> exists x, ps_top top p = Some x /\ ~ In (snd x) (seen p)) -> ~ In u (seen p) ->
    exists x, ps_top top (ps_emplace p w u) = Some x /\ ~ In (snd x) (seen p).
  Proof.
    intros p w u H Hn. unfold ps_top, ps_emplace in *. cbn [pq seen]. destruct (pq p) as [|a q] eqn:Eq.
    - cbn [app]. exists (w, u). destruct (TM [(w, u)]) as (x & Ex & _); [discriminate|]. destruct (top [(w, u)]) as [|[|k]]; cbn in *; try discriminate. auto.
    - destruct H as (x & Ex & Nx); [discriminate|]. destruct (TP (a :: q) (w, u)) as [T|T]; [discriminate| |]; rewrite T.
      + exists x. split; auto. rewrite nth_error_app1; auto. apply nth_error_Some. congruence.
      + exists (w, u). split; auto. rewrite nth_error_app2, Nat.sub_diag by lia. auto.
  Qed.

  Lemma clean_mono : forall E s s' u, lle s s' -> (exists x, pair (sp_pr (fst s)) u = Some x) -> clean E (fst s) u -> clean E (fst s') u \/ (~ In u (seen (snd s)) /\ waits s' u).
  Proof.
    intros E s s' u L [[a b] HP] C. destruct (in_dec Nat.eq_dec u (seen (snd s))) as [Hs|Hs].
    - left. intros a0 b0 l v a' b' H1 H2. assert (K := ext_pair n _ _ _ _ (proj1 (proj1 L)) HP). rewrite K in H1. injection H1 as <- <-.
      destruct (ext_relaxed s s' u l v a' b' L (C _ _ _ _ _ _ HP H2)) as [R|[R _]]; [auto|contradiction].
    - destruct L as (L1 & L2 & L3 & L4). assert (HD : exists d, dist (fst s) u = Some d \/ clean E (fst s') u).
      { destruct (dist (fst s) u) as [d|] eqn:Ed; [exists d; auto|exists 0%Z]. right. intros a0 b0 l v a' b' H1 H2. exfalso.
        assert (K := ext_pair n _ _ _ _ (proj1 L1) HP). rewrite K in H1. injection H1 as <- <-.
        destruct (C _ _ _ _ _ _ HP H2) as (i & d & d' & _ & _ & K3 & _). congruence. }
      destruct HD as [d [Hd|Hc]]; auto. destruct (L4 u d Hd) as [Ed|Hw]; auto. left.
      intros a0 b0 l v a' b' H1 H2. assert (K := ext_pair n _ _ _ _ (proj1 L1) HP). rewrite K in H1. injection H1 as <- <-.
      destruct (C _ _ _ _ _ _ HP H2) as (i & d1 & d' & K1 & K2 & K3 & K4 & K5). rewrite Hd in K3. injection K3 as <-.
      destruct L1 as (X & _ & Y). destruct (Y i d' K4) as (d2 & E2 & L5). exists i, d, d2. ands; auto.
      + eapply ext_pair; eauto. + apply X; auto. + lia.
  Qed.

  (** One relaxation: the common part of all loop bodies. *)
  Lemma relax_spec : forall E sp0 D cur s from a b a' b' ls ml v etp du, pinv E sp0 D cur s -> pair (sp_pr (fst s)) from = Some (a, b) ->
    dist (fst s) from = Some du -> (D <= du)%Z ->
    (forall l, In l ls -> joint EF ES a b l a' b') -> In ml ls -> JS a b ml v a' b' ->
    exists pr1 fr id, get_product_state n false (wa_aut F) (wa_aut S) (sp_pr (fst s)) a' b' = Some (pr1, (fr, id)) /\
      exists pr2, ofold (fun pr l => pr_add_edge pr from l id) ls pr1 = Some pr2 /\
        exists r, sp_finish n etp (mk_sprod pr2 (sp_best (fst s))) (snd s) fr from ml id v = Some r /\
          match r with
          | inr sp' => sfound sp0 etp sp'
          | inl s' => pinv E sp0 D cur s' /\ lle s s' /\ forall l v', In l ls -> (v <= v')%Z -> relaxed1 (fst s') from l v' a' b'
          end.
  Proof.
    intros E sp0 D cur [sp wt] from a b a' b' ls ml v etp du I HP Hdu HD HJ Hml HJv. cbn [fst snd] in *.
    pose proof (pi_base _ _ _ _ _ I) as SB. cbn [fst] in SB. destruct (sb_base _ SB) as [B R].
    destruct (pair_range n _ _ _ HF HS _ _ _ _ B HP) as [Ra Rb]. destruct (joint_range _ _ WF WS _ _ _ _ _ Ra Rb (HJ _ Hml)) as [Ra' Rb'].
    destruct (gps_spec n _ _ false HF HS (sp_pr sp) a' b' B Ra' Rb') as [p1 [fr [id [E1 [B1 [X1 [P1 [D1 Hfr]]]]]]]]. exists p1, fr, id. split; auto.
    destruct (adds_spec n _ _ false HF HS ls p1 from id a b a' b' B1) as [p2 [E2 [B2 [I2 [Z2 D2]]]]]; auto. { eapply ext_pair; eauto. }
    exists p2. split; auto.
    assert (X2: ext (sp_pr sp) p2).
    { split. - destruct X1 as [[k Ek] _]. exists k. congruence. - intros x y z H. apply D2. left. apply D1; auto. }
    assert (Hlt: from < psz (sp_pr sp)) by (apply (pair_lt n _ _ _ HF HS (sp_pr sp) from B); eauto).
    assert (Pid : pair p2 id = Some (a', b')) by (unfold pr_pair in *; rewrite I2; auto).
    assert (PPf : pair p2 from = Some (a, b)) by (eapply ext_pair; eauto).
    assert (Lid: id < psz p2). { rewrite Z2. apply (pair_lt n _ _ _ HF HS p1 id B1); eauto. }
    assert (Lsz : psz (sp_pr sp) <= psz p2). { rewrite Z2. destruct fr; [lia|]. subst p1; auto. }
    assert (B3: pbase p2).
    { constructor; auto. intros i Hi. rewrite Z2 in Hi. destruct fr.
      - destruct Hfr as [-> Hz]. destruct (Nat.eq_dec i (psz (sp_pr sp))) as [->|Hn].
        + destruct (R from Hlt) as [p [w1 [R1 R2]]]. assert (R2': apath (aut_edges (pr_aut p2)) p w1 from) by (eapply apath_mono; [|exact R2]; apply X2).
          destruct (apath_snoc _ _ _ _ ml (psz (sp_pr sp)) R2') as [w2 R3]. { apply D2. right. ands; auto. } exists p, w2. auto.
        + eapply preach_mono; [apply X2|]. apply R. lia.
      - subst p1. eapply preach_mono; [apply X2|]. apply R. auto. }
    assert (Nold : fr = true -> b_find id (sp_best sp) = None /\ n <= id).
    { intros ->. destruct Hfr as [-> _]. assert (Sz := pb_size _ _ _ _ _ B). split; [|lia]. destruct (b_find (psz (sp_pr sp)) (sp_best sp)) as [[[f l] w]|] eqn:Eb; auto.
      apply (sb_back _ SB) in Eb. lia. }
    assert (Ncold : fr = false -> id < psz (sp_pr sp)).
    { intros ->. subst p1. apply (pair_lt n _ _ _ HF HS (sp_pr sp) id B); eauto. }
    set (spA := mk_sprod p2 (sp_best sp)).
    assert (DA : forall q, dist spA q = dist sp q) by reflexivity.
    (* the new weight *)
    assert (Hnw : (if Nat.ltb from n then Some v else b0 <- best spA from ;; Some (b0 + v)%Z) = Some (du + v)%Z).
    { unfold dist in Hdu. destruct (Nat.ltb from n); [injection Hdu as <-; auto|]. change (best spA from) with (best sp from). rewrite Hdu. reflexivity. }
    assert (Vn := JS_nonneg _ _ _ _ _ _ HJv).
    (* the state after make_back_edge *)
    assert (MB : exists sp' wo, make_back_edge n spA from ml id v = Some (sp', wo) /\ sp_pr sp' = p2 /\
      ((wo = None /\ sp' = spA /\ fr = false /\ exists d, dist sp id = Some d /\ (d <= du + v)%Z) \/
       (wo = Some (du + v)%Z /\ n <= id /\ sp' = mk_sprod p2 ((id, (from, ml, (du + v)%Z)) :: sp_best sp) /\ forall d, dist sp id = Some d -> (du + v < d)%Z))).
    { unfold make_back_edge. destruct (Nat.ltb_spec id n) as [L|L].
      - exists spA, None. ands; auto. left. ands; auto. + destruct fr; auto. destruct (Nold eq_refl). lia.
        + exists 0%Z. unfold dist. apply Nat.ltb_lt in L. rewrite L. split; auto. assert (Hd0 := dist_ge sp from du SB Hdu). lia.
      - rewrite Hnw. cbn [obind]. change (best spA id) with (best sp id).
        assert (Did : dist sp id = best sp id) by (unfold dist; destruct (Nat.ltb_spec id n); [lia|auto]).
        destruct (best sp id) as [d|] eqn:Eb.
        + destruct (Z.ltb_spec (du + v) d) as [Lt|Lt].
          * eexists _, _. split; [reflexivity|]. split; auto. right. ands; auto. intros d' Hd'. rewrite Did in Hd'. injection Hd' as <-. auto.
          * exists spA, None. ands; auto. left. ands; auto. -- destruct fr; auto. destruct (Nold eq_refl) as [K _]. unfold best in Eb. rewrite K in Eb. discriminate.
            -- exists d. rewrite Did. auto.
        + eexists _, _. split; [reflexivity|]. split; auto. right. ands; auto. intros d' Hd'. rewrite Did in Hd'. discriminate. }
    destruct MB as (sp' & wo & EM & EP & Hwo).
    assert (Hbest : best sp' = best sp' ) by auto.
    (* dist after *)
    assert (Dsp : forall q, dist sp' q = if (match wo with Some _ => Nat.eqb q id | None => false end) then Some (du + v)%Z else dist sp q).
    { intros q. destruct Hwo as [(-> & -> & _)|(-> & Lid' & -> & _)]; [reflexivity|]. unfold dist, best. cbn [sp_best b_find].
      destruct (Nat.eqb_spec q id) as [->|Hne].
      - destruct (Nat.ltb_spec id n); [lia|]. rewrite Nat.eqb_refl. auto.
      - destruct (Nat.eqb_spec id q); [congruence|]. auto. }
    assert (Dfrom : dist sp' from = Some du).
    { rewrite Dsp. destruct Hwo as [(-> & _)|(-> & Lid' & _ & Hs)]; auto. destruct (Nat.eqb_spec from id) as [<-|]; auto. specialize (Hs _ Hdu). lia. }
    assert (Did' : exists d', dist sp' id = Some d' /\ (d' <= du + v)%Z).
    { rewrite Dsp. destruct Hwo as [(-> & _ & _ & d & Hd & L)|(-> & _)]; [exists d; auto|]. rewrite Nat.eqb_refl. exists (du + v)%Z. split; auto. lia. }
    assert (SLE : sle sp sp').
    { split; [rewrite EP; auto|]. split; [rewrite EP; auto|]. intros q d Hd. rewrite Dsp.
      destruct Hwo as [(-> & _)|(-> & _ & _ & Hs)]; [exists d; split; auto; lia|]. destruct (Nat.eqb_spec q id) as [->|]; [|exists d; split; auto; lia].
      exists (du + v)%Z. split; auto. specialize (Hs _ Hd). lia. }
    (* base *)
    assert (CH : forall k, bchain (sp_best sp) from k -> wo <> None -> ~ In id k).
    { intros k C Hw Hin. destruct Hwo as [(-> & _)|(-> & Lid' & _ & Hs)]; [congruence|].
      assert (Hd : exists d, dist sp id = Some d).
      { clear - C Hin Lid' Hlt SB HF HS WF WS NF NS NA TM TP. revert Hlt. induction C as [q Hq|q f l w k Hb Hc IH]; intros Hlt.
        - destruct Hin as [<-|[]]. unfold dist. apply Nat.ltb_lt in Hq. rewrite Hq. eauto.
        - destruct Hin as [<-|Hin].
          + apply (dist_ex sp q SB); auto.
          + destruct (sb_back _ SB _ _ _ _ Hb) as (_ & d0 & v0 & a0 & b0 & a1 & b1 & D0 & _). apply IH; auto. apply (dist_ex sp f SB); eauto. }
      destruct Hd as [d Hd]. assert (K := chain_le sp SB from k C id du d Hin Hdu Hd). specialize (Hs d Hd). lia. }
    assert (SB' : sbase sp').
    { constructor.
      - rewrite EP. auto.
      - intros i Hi. rewrite EP in Hi. destruct Hwo as [(-> & -> & Ef & d & _)|(-> & Lid' & -> & _)].
        + cbn [sp_best spA]. apply (sb_best _ SB). subst fr. subst p1. lia.
        + cbn [sp_best b_find]. destruct (Nat.eqb_spec id i) as [->|Hne]; [eauto|]. apply (sb_best _ SB). split; [tauto|].
          rewrite Z2 in Hi. destruct fr; [destruct Hfr as [-> Hz]; lia|]. subst p1. tauto.
      - intros i f l w Hi. rewrite EP. destruct Hwo as [(Ew & -> & Ef & _)|(Ew & Lid' & Esp & Hs)].
        + cbn [sp_best spA] in Hi. destruct (sb_back _ SB _ _ _ _ Hi) as (Hr & d0 & v0 & a0 & b0 & a1 & b1 & K1 & K2 & K3 & K4 & K5 & K6).
          split; [lia|]. exists d0, v0, a0, b0, a1, b1. ands; auto. * apply X2; auto. * eapply ext_pair; eauto. * eapply ext_pair; eauto.
        + assert (Hi' := Hi). rewrite Esp in Hi'. cbn [sp_best b_find] in Hi'. destruct (Nat.eqb_spec id i) as [->|Hne].
          * injection Hi' as <- <- <-. split; [lia|]. exists du, v, a, b, a', b'. ands; auto; try lia. apply D2. right. auto.
          * destruct (sb_back _ SB _ _ _ _ Hi') as (Hr & d0 & v0 & a0 & b0 & a1 & b1 & K1 & K2 & K3 & K4 & K5 & K6).
            split; [lia|]. destruct SLE as (_ & _ & Y). destruct (Y f d0 K1) as (d1 & Ed & Ld). exists d1, v0, a0, b0, a1, b1. ands; auto; try lia.
            -- apply X2; auto. -- eapply ext_pair; eauto. -- eapply ext_pair; eauto.
      - intros i Hi. rewrite EP in Hi. destruct Hwo as [(Ew & -> & Ef & _)|(Ew & Lid' & Esp & Hs)].
        + cbn [sp_best spA]. apply (sb_chain _ SB). subst fr. subst p1. lia.
        + assert (CH' : forall k, bchain (sp_best sp) from k -> ~ In id k) by (intros; apply CH; auto; congruence).
          destruct (sb_chain _ SB from Hlt) as [k0 C0]. assert (C0' : bchain (sp_best sp') from k0).
          { rewrite Esp. cbn [sp_best]. apply bc_upd; auto. }
          assert (Cid : bchain (sp_best sp') id (id :: k0)).
          { eapply bc_cons; eauto. rewrite Esp. cbn [sp_best b_find]. rewrite Nat.eqb_refl. reflexivity. }
          destruct (Nat.eq_dec i id) as [->|Hne]; [eauto|].
          assert (Li : i < psz (sp_pr sp)). { rewrite Z2 in Hi. destruct fr; [destruct Hfr as [-> Hz]; lia|]. subst p1. tauto. }
          destruct (sb_chain _ SB i Li) as [k C]. clear - C Cid Esp. induction C as [q Hq|q f l w k Hb Hc IH].
          * exists [q]. apply bc_nil; auto.
          * destruct (Nat.eq_dec q id) as [->|Hn]; [eauto|]. destruct IH as [k' C']. exists (q :: k'). eapply bc_cons; eauto. rewrite Esp. cbn [sp_best b_find].
            destruct (Nat.eqb_spec id q); [congruence|]. exact Hb. }
    unfold sp_finish. fold spA. rewrite EM. cbn [obind fst snd].
    assert (Ef : fr && match wo with None => true | Some _ => false end = false).
    { destruct Hwo as [(-> & _ & -> & _)|(-> & _)]; [reflexivity|]. destruct fr; auto. }
    rewrite Ef. destruct (good_enough_spec sp' etp SB') as (g & Eg & Hg). rewrite Eg. cbn [obind]. eexists; split; [reflexivity|].
    destruct g; [unfold sfound; ands; auto; [eapply sle_trans; [apply (pi_le _ _ _ _ _ I)|auto]|apply Hg; auto]|].
    set (wt' := match wo with Some nw => ps_emplace wt nw id | None => wt end).
    assert (SN : seen wt' = seen wt) by (unfold wt'; destruct wo; auto).
    assert (IP : forall y, In y (pq wt) -> In y (pq wt')) by (unfold wt'; destruct wo; auto; intros y Hy; cbn; apply in_or_app; auto).
    assert (UNS : wo <> None -> ~ In id (seen wt)).
    { intros Hw Hin. destruct Hwo as [(-> & _)|(-> & _ & _ & Hs)]; [congruence|]. destruct (pi_seen _ _ _ _ _ I id Hin) as (d & Hd & Ld).
      cbn [fst] in Hd. specialize (Hs _ Hd). lia. }
    assert (WID : wo <> None -> waits (sp', wt') id).
    { intros Hw. destruct Hwo as [(-> & _)|(-> & _)]; [congruence|]. exists (du + v)%Z. cbn [fst snd]. rewrite Dsp, Nat.eqb_refl. split; auto.
      cbn. apply in_or_app. right. left. auto. }
    assert (LLE : lle (sp, wt) (sp', wt')).
    { split; [exact SLE|]. cbn [fst snd]. ands; auto.
      - intros u [(d & Hd & Hin)|[N1 N2]]; cbn [fst snd] in *.
        2: { rewrite Dsp in N2. destruct wo as [z|] eqn:Ew; [|congruence]. destruct (Nat.eqb_spec u id) as [->|Hne]; [|congruence]. apply WID. congruence. }
        destruct (Nat.eq_dec u id) as [->|Hne].
        + destruct wo eqn:Ew; [apply WID; congruence|]. exists d. cbn [fst snd]. rewrite Dsp. auto.
        + exists d. cbn [fst snd]. rewrite Dsp. split; auto. destruct wo; auto. destruct (Nat.eqb_spec u id); [congruence|auto].
      - intros u d Hd. rewrite Dsp. destruct wo as [z|] eqn:Ew; [|left; auto]. destruct (Nat.eqb_spec u id) as [->|Hne]; [|left; auto].
        right. split; [apply UNS; congruence|apply WID; congruence]. }
    assert (REL : forall l v', In l ls -> (v <= v')%Z -> relaxed1 sp' from l v' a' b').
    { intros l v' Hl Hv. destruct Did' as (d' & Hd' & Ld'). exists id, du, d'. rewrite EP. ands; auto; [apply D2; auto|lia]. }
    ands; auto. constructor; cbn [fst snd].
    - exact SB'.
    - eapply sle_trans; [apply (pi_le _ _ _ _ _ I)|auto].
    - intros w u Hin. assert (C : In (w, u) (pq wt) \/ (wo = Some w /\ u = id)).
      { unfold wt' in Hin. destruct wo as [z|]; auto. cbn in Hin. apply in_app_or in Hin. destruct Hin as [Hin|[Hin|[]]]; auto. injection Hin as -> ->. auto. }
      destruct C as [C|[C1 ->]].
      + destruct (pi_pq _ _ _ _ _ I w u C) as (K1 & d & K2 & K3). cbn [fst] in K2. split; auto. destruct SLE as (_ & _ & Y). destruct (Y u d K2) as (d' & Ed & Ld). exists d'. split; auto. lia.
      + destruct Hwo as [(E' & _)|(E' & _)]; [congruence|]. rewrite C1 in E'. injection E' as ->. split; [lia|]. destruct Did' as (d' & Hd' & Ld'). exists d'. auto.
    - intros w u Hin Hns. rewrite SN in Hns. assert (C : In (w, u) (pq wt) \/ (wo <> None /\ u = id)).
      { unfold wt' in Hin. destruct wo as [z|]; auto. cbn in Hin. apply in_app_or in Hin. destruct Hin as [Hin|[Hin|[]]]; auto. injection Hin as -> ->. right. split; congruence. }
      destruct C as [C|[C1 ->]]; [|auto]. apply LLE. left. apply (pi_w _ _ _ _ _ I w u); auto.
    - rewrite SN. intros u Hin. destruct (pi_seen _ _ _ _ _ I u Hin) as (d & Hd & Ld). cbn [fst] in Hd. destruct SLE as (_ & _ & Y). destruct (Y u d Hd) as (d' & Ed & Ld'). exists d'. split; auto. lia.
    - rewrite SN. apply (pi_nd _ _ _ _ _ I).
    - rewrite SN. intros u Hin Hc. destruct (clean_mono E (sp, wt) (sp', wt') u LLE) as [C|[C _]]; auto; [|apply (pi_sc _ _ _ _ _ I); auto|contradiction].
      destruct (pi_seen _ _ _ _ _ I u Hin) as (d & Hd & _). cbn [fst] in *. apply (pair_lt n _ _ _ HF HS (sp_pr sp) u B). apply (dist_ex sp u SB); eauto.
    - rewrite SN, EP. intros u Hu Hns. destruct (Nat.eq_dec u id) as [->|Hne].
      + destruct wo eqn:Ew; [right; apply WID; congruence|]. assert (L : id < psz (sp_pr sp)). { destruct Hwo as [(_ & _ & Ef' & _)|(K & _)]; [auto|congruence]. }
        destruct (pi_cw _ _ _ _ _ I id L Hns) as [C|C]; [|right; apply LLE; auto].
        destruct (clean_mono E (sp, wt) (sp', wt') id LLE) as [C'|[_ C']]; auto. apply (pair_lt n _ _ _ HF HS (sp_pr sp) id B). auto.
      + assert (L : u < psz (sp_pr sp)). { rewrite Z2 in Hu. destruct fr; [destruct Hfr as [-> Hz]; lia|]. subst p1. tauto. }
        destruct (pi_cw _ _ _ _ _ I u L Hns) as [C|C]; [|right; apply LLE; auto].
        destruct (clean_mono E (sp, wt) (sp', wt') u LLE) as [C'|[_ C']]; auto. apply (pair_lt n _ _ _ HF HS (sp_pr sp) u B). auto.
    - rewrite SN. intros Hne. unfold wt' in *. destruct wo as [z|].
      + apply emplace_top; [apply (pi_top _ _ _ _ _ I)|]. apply UNS. congruence.
      + apply (pi_top _ _ _ _ _ I). auto.
  Qed.

  Lemma min_label_spec : forall wf ls cur, In (min_label wf cur ls) (cur :: ls) /\ forall l, In l (cur :: ls) -> (wf (min_label wf cur ls) <= wf l)%Z.
  Proof.
    intros wf ls; induction ls as [|x ls IH]; intros cur; cbn [min_label].
    - split; [left; auto|]. intros l [<-|[]]. lia.
    - destruct (Z.ltb_spec (wf x) (wf cur)) as [L|L].
      + destruct (IH x) as [I1 I2]. split; [cbn in *; tauto|]. intros l [<-|[<-|Hl]].
        * specialize (I2 x (or_introl eq_refl)). lia. * apply I2; left; auto. * apply I2; right; auto.
      + destruct (IH cur) as [I1 I2]. split; [cbn in *; tauto|]. intros l [<-|[<-|Hl]].
        * apply I2; left; auto. * specialize (I2 cur (or_introl eq_refl)). lia. * apply I2; right; auto.
  Qed.

  (** Expanding the state that was popped last. *)
  Definition xinv (sp0 : sprod) (D : Z) (u : nat) (s : sploop) : Prop :=
    pinv EF sp0 D (Some u) s /\ In u (seen (snd s)) /\ dist (fst s) u = Some D.
  Lemma xinv_lle : forall sp0 D u s s', xinv sp0 D u s -> lle s s' -> pinv EF sp0 D (Some u) s' -> xinv sp0 D u s'.
  Proof.
    intros sp0 D u s s' (H1 & H2 & H3) (_ & L2 & _ & L4) H. unfold xinv. ands; auto; [rewrite L2; auto|].
    destruct (L4 u D H3) as [E|[E _]]; [auto|contradiction].
  Qed.
  Lemma xrel : forall sp0 D u s s' l v a' b', xinv sp0 D u s -> lle s s' -> relaxed1 (fst s) u l v a' b' -> relaxed1 (fst s') u l v a' b'.
  Proof. intros sp0 D u s s' l v a' b' (H1 & H2 & H3) L R. destruct (ext_relaxed s s' u l v a' b' L R) as [K|[K _]]; [auto|contradiction]. Qed.

  Lemma xeps_spec : forall etp flip sp0 D u a b s, xinv sp0 D u s -> pair (sp_pr (fst s)) u = Some (a, b) ->
    exists r, eloop (sp_eps_body n flip F S etp u a b) (if flip then tos (wa_aut F) a else tos (wa_aut S) b) s = Some r /\
      match r with
      | inr p => sfound sp0 etp p
      | inl s' => xinv sp0 D u s' /\ lle s s' /\ forall t, (if flip then EF a None t else ES b None t) ->
          relaxed1 (fst s') u None (if flip then wF (mk_edge a None t) else wS (mk_edge b None t)) (if flip then t else a) (if flip then b else t)
      end.
  Proof.
    intros etp flip sp0 D u a b s HI HP.
    destruct (eloop_rule _ _ _ (sp_eps_body n flip F S etp u a b) (fun s => xinv sp0 D u s /\ pair (sp_pr (fst s)) u = Some (a, b)) lle
       (fun t s => (if flip then EF a None t else ES b None t) ->
          relaxed1 (fst s) u None (if flip then wF (mk_edge a None t) else wS (mk_edge b None t)) (if flip then t else a) (if flip then b else t)) (sfound sp0 etp)) with
       (l := if flip then tos (wa_aut F) a else tos (wa_aut S) b) (s := s) as [r [E H]]; auto.
    - apply lle_refl.
    - apply lle_trans.
    - intros t s1 s2 [H1 _] H2 H3 H4. eapply xrel; eauto.
    - intros s1 t _ [HI' HPr]. unfold sp_eps_body.
      assert (Hc: has_label (wa_aut (if flip then F else S)) (if flip then a else b) t None = true <-> (if flip then EF a None t else ES b None t)) by (destruct flip; apply has_label_spec).
      destruct (has_label (wa_aut (if flip then F else S)) (if flip then a else b) t None).
      + assert (He: if flip then EF a None t else ES b None t) by (apply Hc; auto). destruct HI' as (I1 & I2 & I3).
        destruct (relax_spec EF sp0 D (Some u) s1 u a b (if flip then t else a) (if flip then b else t) [None] None
          (if flip then wF (mk_edge a None t) else wS (mk_edge b None t)) etp D I1 HPr I3) as [p1 [fr [id [E1 [p2 [E2 [r [E3 H]]]]]]]].
        { lia. } { intros l [<-|[]]. cbn. destruct flip; auto. } { left; auto. } { cbn. destruct flip; auto. }
        rewrite E1. cbn [obind fst snd]. cbn [ofold] in E2.
        destruct (pr_add_edge p1 u None id) as [p2'|] eqn:Ea; [|discriminate]. cbn in E2. injection E2 as ->. cbn [obind].
        exists r. split.
        { rewrite <- E3. destruct flip; reflexivity. }
        destruct r as [s2|p]; auto. destruct H as [H1 [H2 H3]]. ands; auto.
        * apply (xinv_lle sp0 D u s1); unfold xinv; auto.
        * eapply ext_pair; [apply H2|auto].
        * intros _. apply H3; [left; auto|lia].
      + exists (inl s1); split; [reflexivity|]. ands; auto. { apply lle_refl. } intros He. apply Hc in He. discriminate.
    - exists r. split; auto. destruct r as [s'|p]; auto. destruct H as [[H1 H0] [H2 H3]]. ands; auto. intros t Ht. apply H3; auto.
      destruct flip; apply tos_In; eauto; [apply WF|apply WS].
  Qed.

  Lemma xpair_spec : forall etp sp0 D u a b s, xinv sp0 D u s -> pair (sp_pr (fst s)) u = Some (a, b) ->
    exists r, eloop (fun s i_to => eloop (sp_pair_body n F S etp u a b i_to) (tos (wa_aut S) b) s) (tos (wa_aut F) a) s = Some r /\
      match r with
      | inr p => sfound sp0 etp p
      | inl s' => xinv sp0 D u s' /\ lle s s' /\ forall x a' b', EF a (Some x) a' -> ES b (Some x) b' -> relaxed1 (fst s') u (Some x) (wF (mk_edge a (Some x) a')) a' b'
      end.
  Proof.
    intros etp sp0 D u a b s HI HP.
    set (IN := fun s => xinv sp0 D u s /\ pair (sp_pr (fst s)) u = Some (a, b)).
    assert (MQ: forall i t (s1 s2 : sploop), IN s1 -> lle s1 s2 ->
                  (forall x, EF a (Some x) i -> ES b (Some x) t -> relaxed1 (fst s1) u (Some x) (wF (mk_edge a (Some x) i)) i t) ->
                  (forall x, EF a (Some x) i -> ES b (Some x) t -> relaxed1 (fst s2) u (Some x) (wF (mk_edge a (Some x) i)) i t)).
    { intros i t s1 s2 [H0 _] L H x H1 H2. eapply xrel; eauto. }
    destruct (eloop_rule _ _ _ (fun s i_to => eloop (sp_pair_body n F S etp u a b i_to) (tos (wa_aut S) b) s) IN lle
       (fun i s => forall t, In t (tos (wa_aut S) b) -> forall x, EF a (Some x) i -> ES b (Some x) t -> relaxed1 (fst s) u (Some x) (wF (mk_edge a (Some x) i)) i t) (sfound sp0 etp)) with
       (l := tos (wa_aut F) a) (s := s) as [r [E H]]; auto.
    - apply lle_refl.
    - apply lle_trans.
    - intros i s1 s2 H0 H1 H2 t Ht. apply (MQ i t s1 s2); auto.
    - intros s1 i _ HI1. apply (eloop_rule _ _ _ (sp_pair_body n F S etp u a b i) IN lle
         (fun t s => forall x, EF a (Some x) i -> ES b (Some x) t -> relaxed1 (fst s) u (Some x) (wF (mk_edge a (Some x) i)) i t) (sfound sp0 etp)); auto.
      + apply lle_refl.
      + apply lle_trans.
      + intros x s2 s3 K1 K2 K3. apply (MQ i x s2 s3); auto.
      + intros s2 t _ [HI' HPr]. unfold sp_pair_body. set (ls := label_inter (labels_between (wa_aut F) a i) (labels_between (wa_aut S) b t)).
        assert (Hls: forall l, In l ls <-> EF a l i /\ ES b l t) by (intros; apply (label_inter_spec n _ _ HF HS)).
        assert (Hpr := proper_spec n _ _ HF HS ls (label_inter_sorted n _ _ HF HS _ _ _ _)). destruct (has_proper_label ls).
        * change (fun l : option nat => match l with Some _ => true | None => false end) with is_some.
          assert (Hfl : forall l, In l (filter is_some ls) -> exists x, l = Some x /\ EF a (Some x) i /\ ES b (Some x) t).
          { intros l Hl. apply filter_In in Hl. destruct Hl as [Hl Hs]. destruct l as [x|]; [|discriminate]. apply Hls in Hl. eauto. }
          destruct (filter is_some ls) as [|l0 ls0] eqn:Efl.
          { exfalso. destruct (proj1 Hpr eq_refl) as [x Hx]. assert (K: In (Some x) (filter is_some ls)) by (apply filter_In; auto). rewrite Efl in K. destruct K. }
          set (wf := fun l => w_of F (mk_edge a l i)). destruct (min_label_spec wf ls0 l0) as [ML1 ML2]. set (ml := min_label wf l0 ls0) in *.
          destruct (Hfl ml ML1) as (x0 & Ex0 & Ex1 & Ex2). destruct HI' as (I1 & I2 & I3).
          destruct (relax_spec EF sp0 D (Some u) s2 u a b i t (l0 :: ls0) ml (wf ml) etp D I1 HPr I3) as [p1 [fr [id [E1 [p2 [E2 [r [E3 H]]]]]]]].
          { lia. } { intros l Hl. destruct (Hfl l Hl) as (x & -> & K1 & K2). cbn. auto. } { auto. } { rewrite Ex0. cbn. ands; auto. }
          rewrite E1. cbn [obind fst snd]. rewrite add_labels_filter, Efl, E2. cbn [obind].
          exists r. split; [exact E3|]. destruct r as [s3|p]; auto. destruct H as [H1 [H2 H3]]. unfold IN. ands; auto.
          -- apply (xinv_lle sp0 D u s2); unfold xinv; auto.
          -- eapply ext_pair; [apply H2|auto].
          -- intros x K1 K2. assert (Hx : In (Some x) (l0 :: ls0)) by (rewrite <- Efl; apply filter_In; split; auto; apply Hls; auto).
             apply H3; auto. apply (ML2 (Some x)); auto.
        * exists (inl s2); split; [reflexivity|]. unfold IN. ands; auto. { apply lle_refl. } intros x K1 K2. exfalso.
          assert (K: false = true) by (apply Hpr; exists x; apply Hls; auto). discriminate.
    - split; auto.
    - exists r. split; auto. destruct r as [s'|p]; auto. destruct H as [[H1 H0] [H2 H3]]. ands; auto. intros x a' b' K1 K2.
      apply H3; auto; apply tos_In; eauto; [apply WF|apply WS].
  Qed.

  Lemma xexpand_spec : forall etp sp0 D u s, xinv sp0 D u s ->
    exists r, sp_expand n F S etp u s = Some r /\
      match r with
      | inr p => sfound sp0 etp p
      | inl s' => xinv sp0 D u s' /\ lle s s' /\ clean EF (fst s') u
      end.
  Proof.
    intros etp sp0 D u s HI. pose proof HI as (I1 & I2 & I3). pose proof (pi_base _ _ _ _ _ I1) as SB. pose proof (pb_0 _ _ _ _ _ (sb_base _ SB)) as B.
    assert (Lu : u < psz (sp_pr (fst s))) by (apply (dist_ex _ u SB); eauto).
    destruct (proj1 (pair_lt n _ _ _ HF HS (sp_pr (fst s)) u B) Lu) as [[a b] HP]. unfold sp_expand. rewrite HP. cbn [obind fst snd].
    destruct (pair_range n _ _ _ HF HS _ _ _ _ B HP) as [Ra Rb]. apply Nat.ltb_lt in Ra, Rb. rewrite Ra, Rb. cbn [andb].
    destruct (xeps_spec etp true sp0 D u a b s HI HP) as [[s1|p1] [E1 H1]]; rewrite E1; cbn [obind]; [|eexists; split; [reflexivity|auto]].
    destruct H1 as [X1 [L1 C1]]. assert (HP1 : pair (sp_pr (fst s1)) u = Some (a, b)) by (eapply ext_pair; [apply L1|auto]).
    destruct (xeps_spec etp false sp0 D u a b s1 X1 HP1) as [[s2|p2] [E2 H2]]; rewrite E2; cbn [obind]; [|eexists; split; [reflexivity|auto]].
    destruct H2 as [X2 [L2 C2]]. assert (HP2 : pair (sp_pr (fst s2)) u = Some (a, b)) by (eapply ext_pair; [apply L2|auto]).
    destruct (xpair_spec etp sp0 D u a b s2 X2 HP2) as [[s3|p3] [E3 H3]]; rewrite E3; (eexists; split; [reflexivity|]); auto.
    destruct H3 as [X3 [L3 C3]]. split; auto. split; [eapply lle_trans; [exact L1|]; eapply lle_trans; eauto|]. intros a0 b0 l v a' b' H HJ.
    assert (K: pair (sp_pr (fst s3)) u = Some (a, b)) by (eapply ext_pair; [apply L3|auto]). rewrite K in H. injection H as <- <-.
    destruct l as [x|]; cbn in HJ.
    - destruct HJ as (J1 & J2 & ->). apply C3; auto.
    - destruct HJ as [(J & -> & ->)|(J & -> & ->)].
      + eapply xrel; [exact X1| |apply (C1 a' J)]. eapply lle_trans; eauto.
      + eapply xrel; [exact X2| |apply (C2 b' J)]. auto.
  Qed.

  Definition all_clean (sp : sprod) : Prop := forall id, id < psz (sp_pr sp) -> clean EF sp id.
  Definition sout (sp0 : sprod) (etp : option Z) (b : bool) (sp : sprod) : Prop :=
    sbase sp /\ sle sp0 sp /\ (b = true <-> accepted_within sp etp) /\ (b = false -> all_clean sp).

  Lemma sp_construct_spec : forall etp fuel sp0 D s, pinv EF sp0 D None s ->
    n + a_size (wa_aut F) * a_size (wa_aut S) <= fuel + length (seen (snd s)) ->
    exists b sp', sp_construct n top fuel F S etp (fst s) (snd s) = Some (b, sp') /\ sout sp0 etp b sp'.
  Proof.
    intros etp fuel; induction fuel as [|fuel IH]; intros sp0 D s I Hf.
    all: pose proof (pi_base _ _ _ _ _ I) as SB; pose proof (pb_0 _ _ _ _ _ (sb_base _ SB)) as B; cbn [sp_construct].
    all: destruct (ps_empty (snd s)) eqn:Ee.
    1, 3: destruct (good_enough_spec (fst s) etp SB) as (g & Eg & Hg); rewrite Eg; cbn [obind]; exists g, (fst s); split; auto;
      unfold sout; ands; auto; [apply (pi_le _ _ _ _ _ I)|]; intros _ id Hid;
      assert (Ep : pq (snd s) = []) by (unfold ps_empty in Ee; destruct (pq (snd s)); [auto|discriminate]);
      destruct (in_dec Nat.eq_dec id (seen (snd s))) as [Hs|Hs];
        [apply (pi_sc _ _ _ _ _ I); auto; discriminate
        |destruct (pi_cw _ _ _ _ _ I id Hid Hs) as [C|(d & _ & C)]; auto; rewrite Ep in C; destruct C].
    all: assert (Hq : pq (snd s) <> []) by (unfold ps_empty in Ee; destruct (pq (snd s)); discriminate).
    all: destruct (pi_top _ _ _ _ _ I Hq) as ([w u] & Tx & Nx); cbn [snd] in Nx; unfold ps_top in Tx.
    all: assert (Hin : In (w, u) (pq (snd s))) by (eapply nth_error_In; eauto).
    all: destruct (pi_pq _ _ _ _ _ I w u Hin) as (Dw & d & Hd & Ld).
    all: assert (Lu : u < psz (sp_pr (fst s))) by (apply (dist_ex _ u SB); eauto).
    - (* every state was handed out already *)
      exfalso. assert (K : length (u :: seen (snd s)) <= length (seq 0 (psz (sp_pr (fst s))))).
      { apply NoDup_incl_length; [constructor; auto; apply (pi_nd _ _ _ _ _ I)|]. intros x [<-|Hx]; apply in_seq; [lia|].
        destruct (pi_seen _ _ _ _ _ I x Hx) as (dx & Hdx & _). assert (x < psz (sp_pr (fst s))) by (apply (dist_ex _ x SB); eauto). lia. }
      rewrite seq_length in K. cbn [length] in K. assert (Sz := pb_size _ _ _ _ _ B). assert (Lb := ids_bound n _ _ _ HF HS _ B). lia.
    - assert (Edw : d = w).
      { destruct (pi_w _ _ _ _ _ I w u Hin Nx) as (d' & Hd' & Hin'). rewrite Hd in Hd'. injection Hd' as <-.
        destruct (TM _ Hq) as (x & Ex & Mx). rewrite Tx in Ex. injection Ex as <-. specialize (Mx _ Hin'). unfold zcomp in Mx. cbn in Mx. apply Z.ltb_ge in Mx. lia. }
      subst d. unfold ps_pop, ps_top. rewrite Tx. cbn [obind fst snd].
      destruct (memb u (seen (snd s))) eqn:M; [apply memb_In in M; contradiction|].
      destruct (remove_at_split _ (pq (snd s)) _ (w, u) Tx) as (l1 & l2 & Eq & Er). rewrite Er.
      destruct (ps_skip_spec Z zcomp top TM (length (l1 ++ l2)) (l1 ++ l2) (u :: seen (snd s))) as (q' & R1 & R2 & R3 & R4); [lia|]. rewrite R1. cbn [obind].
      assert (Q1 : forall y, In y q' -> In y (pq (snd s))).
      { intros y Hy. apply R2 in Hy. rewrite Eq. apply in_app_or in Hy. apply in_or_app. cbn. tauto. }
      assert (Q2 : forall y, In y (pq (snd s)) -> snd y <> u -> ~ In (snd y) (seen (snd s)) -> In y q').
      { intros y Hy Hne Hns. apply R3; [|intros [K|K]; auto]. rewrite Eq in Hy. apply in_app_or in Hy. apply in_or_app. destruct Hy as [Hy|[<-|Hy]]; auto. cbn in Hne. congruence. }
      set (s1 := (fst s, mk_pset q' (u :: seen (snd s)))).
      assert (W1 : forall x, waits s x -> x <> u -> ~ In x (seen (snd s)) -> waits s1 x).
      { intros x (dx & Hdx & Hix) Hne Hns. exists dx. split; auto. }
      assert (X : xinv sp0 w u s1).
      { unfold xinv. ands; cbn [fst snd seen s1]; auto; [|left; auto]. constructor; cbn [fst snd seen pq s1].
        - exact SB.
        - apply (pi_le _ _ _ _ _ I).
        - intros wx x Hx. destruct (pi_pq _ _ _ _ _ I wx x (Q1 _ Hx)) as (_ & K). split; auto.
          destruct (TM _ Hq) as (y & Ey & My). rewrite Tx in Ey. injection Ey as <-. specialize (My _ (Q1 _ Hx)). unfold zcomp in My. cbn in My. apply Z.ltb_ge in My. auto.
        - intros wx x Hx Hns. apply W1; [apply (pi_w _ _ _ _ _ I wx x (Q1 _ Hx))| |]; intros K; apply Hns; [right|left|right]; auto.
        - intros x [<-|Hx]; [exists w; split; auto; lia|]. destruct (pi_seen _ _ _ _ _ I x Hx) as (dx & Hdx & Ldx). exists dx. split; auto. lia.
        - constructor; auto. apply (pi_nd _ _ _ _ _ I).
        - intros x [<-|Hx] Hc; [congruence|]. apply (pi_sc _ _ _ _ _ I); auto. discriminate.
        - intros x Hx Hns. destruct (pi_cw _ _ _ _ _ I x Hx) as [C|C]; auto.
          + intros K; apply Hns; right; auto.
          + right. apply W1; auto; intros K; apply Hns; [left|right]; auto.
        - intros Hne. apply R4 in Hne. exact Hne. }
      destruct (xexpand_spec etp sp0 w u s1 X) as [[s2|p2] [E2 H2]]; fold s1; rewrite E2; cbn [obind].
      + destruct H2 as [(X1 & X2 & X3) [L2 C2]]. destruct (IH sp0 w s2) as (bb & sp2 & E3 & O3).
        * destruct X1. constructor; auto. intros x Hx _. destruct (Nat.eq_dec x u) as [->|Hne]; auto. apply pi_sc0; auto. congruence.
        * assert (Es : length (seen (snd s2)) = Datatypes.S (length (seen (snd s)))).
          { destruct L2 as (_ & Ls & _). rewrite Ls. reflexivity. }
          rewrite Es. lia.
        * destruct s2 as [sp' w']. cbn [fst snd] in *. exists bb, sp2. auto.
      + destruct H2 as (K1 & K2 & K3). exists true, p2. split; auto. unfold sout. ands; auto; [tauto|discriminate].
  Qed.

  Lemma sp_initialize_spec : forall sp, sbase sp -> psz (sp_pr sp) = n ->
    exists b sp', sp_initialize n top F S sp = Some (b, sp') /\ sout sp (Some 0%Z) b sp'.
  Proof.
    intros sp SB Hn. unfold sp_initialize. set (wt := fold_left (fun w i => ps_emplace w 0%Z i) (seq 0 (a_size (pr_aut (sp_pr sp)))) (mk_pset [] [])).
    assert (W : seen wt = [] /\ (forall w u, In (w, u) (pq wt) <-> w = 0%Z /\ u < n) /\ (pq wt <> [] -> exists x, ps_top top wt = Some x /\ ~ In (snd x) (seen wt))).
    { unfold wt. change (a_size (pr_aut (sp_pr sp))) with (psz (sp_pr sp)). rewrite Hn. clear Hn SB wt. generalize n. intros m. induction m as [|k IH].
      - cbn. ands; auto. + intros w u. split; [tauto|lia]. + congruence.
      - rewrite seq_S, fold_left_app. cbn [fold_left]. destruct IH as (I1 & I2 & I3). set (p := fold_left (fun w i => ps_emplace w 0%Z i) (seq 0 k) (mk_pset [] [])) in *.
        ands; auto.
        + intros w u. cbn. rewrite in_app_iff, I2. cbn. split; [intros [[-> H]|[H|[]]]; [lia|injection H as <- <-; lia]|].
          intros [-> H]. destruct (Nat.eq_dec u k) as [->|]; [right; left; auto|left; split; auto; lia].
        + intros _. cbn [Nat.add]. change (seen (ps_emplace p 0%Z k)) with (seen p). apply emplace_top; auto. rewrite I1. auto. }
    destruct W as (W1 & W2 & W3).
    assert (PI : pinv EF sp 0%Z None (sp, wt)).
    { constructor; cbn [fst snd].
      - auto.
      - apply sle_refl.
      - intros w u H. apply W2 in H. destruct H as [-> H]. split; [lia|]. exists 0%Z. unfold dist. apply Nat.ltb_lt in H. rewrite H. split; auto. lia.
      - intros w u H _. apply W2 in H as H'. destruct H' as [-> H']. exists 0%Z. cbn [fst snd]. split; auto. unfold dist. apply Nat.ltb_lt in H'. rewrite H'. auto.
      - rewrite W1. intros u [].
      - rewrite W1. constructor.
      - rewrite W1. intros u [].
      - intros u H _. right. exists 0%Z. cbn [fst snd]. rewrite Hn in H. split; [|apply W2; auto]. unfold dist. apply Nat.ltb_lt in H. rewrite H. auto.
      - auto. }
    destruct (sp_construct_spec (Some 0%Z) (sp_fuel n F S) sp 0%Z (sp, wt) PI) as (b & sp' & E & O); [unfold sp_fuel; lia|]. eauto.
  Qed.

  (** Adding an edge of the first automaton. [E0]: the edges before. *)
  Lemma sp_add_edge_spec : forall E0 sp e etp, sbase sp -> EF (e_src e) (e_lab e) (e_dst e) ->
    (forall x y z, EF x y z -> E0 x y z \/ (x = e_src e /\ y = e_lab e /\ z = e_dst e)) -> (forall id, id < psz (sp_pr sp) -> clean E0 sp id) ->
    exists b sp', sp_add_edge n top F S sp e (wF e) etp = Some (b, sp') /\ sout sp etp b sp'.
  Proof.
    intros E0 sp e etp SB He HE HC. unfold sp_add_edge. set (from := e_src e).
    set (fs := nth from (pr_fast (sp_pr sp)) [] ++ (if Nat.ltb from n then [(from, from)] else [])).
    pose proof (pb_0 _ _ _ _ _ (sb_base _ SB)) as B.
    assert (Hfs: forall o id, In (o, id) fs <-> pair (sp_pr sp) id = Some (from, o)).
    { intros o id. unfold fs. rewrite in_app_iff, (pb_fast _ _ _ _ _ B). split.
      - intros [[_ H]|H]; auto. destruct (Nat.ltb_spec from n) as [L|L]; [|destruct H]. destruct H as [H|[]]. injection H as <- <-. unfold pr_pair. apply Nat.ltb_lt in L. rewrite L. auto.
      - intros H. destruct (Nat.lt_ge_cases id n) as [L|L]; [right|left; auto]. unfold pr_pair in H. apply Nat.ltb_lt in L as L'. rewrite L' in H.
        injection H as Ei Eo. subst o. rewrite <- Ei, L'. left. auto. }
    assert (He' : wF e = wF (mk_edge from (e_lab e) (e_dst e))) by (destruct e; reflexivity).
    set (IN := fun s : sploop => pinv E0 sp 0%Z None s /\ seen (snd s) = []).
    assert (ST : IN (sp, mk_pset [] [])).
    { split; auto. constructor; cbn [fst snd pq seen]; auto.
      - apply sle_refl.
      - intros w u [].
      - intros w u [].
      - intros u [].
      - constructor.
      - intros u [].
      - congruence. }
    set (QQ := fun (x : nat * nat) (s : sploop) => forall ot, (match e_lab e with None => ot = fst x | Some l => ES (fst x) (Some l) ot end) ->
           relaxed1 (fst s) (snd x) (e_lab e) (wF e) (e_dst e) ot \/ waits s (snd x)).
    destruct (eloop_rule _ _ _ (fun s (x : nat * nat) =>
         if Nat.ltb (fst x) (a_size (wa_aut S)) then
           eloop (sp_target_body n F S etp (e_lab e) (e_dst e) (wF e) (snd x))
             (match e_lab e with None => [fst x] | Some l => filter (fun t => has_label (wa_aut S) (fst x) t (Some l)) (tos (wa_aut S) (fst x)) end) s
         else None) IN lle QQ (sfound sp etp)) with (l := fs) (s := (sp, mk_pset (W := Z) [] [])) as [r [E H]]; auto.
    - apply lle_refl.
    - apply lle_trans.
    - intros x s s' _ L Q ot Ho. destruct (Q ot Ho) as [R|R]; [|right; apply L; auto]. destruct (ext_relaxed s s' _ _ _ _ _ L R) as [K|[_ K]]; auto.
    - intros s [o id] Hin [HI Hsn]. cbn [fst snd]. apply Hfs in Hin. destruct (pair_range n _ _ _ HF HS _ _ _ _ B Hin) as [_ Ho]. apply Nat.ltb_lt in Ho. rewrite Ho.
      destruct (eloop_rule _ _ _ (sp_target_body n F S etp (e_lab e) (e_dst e) (wF e) id) IN lle
        (fun ot s => relaxed1 (fst s) id (e_lab e) (wF e) (e_dst e) ot \/ waits s id) (sfound sp etp)) with
        (l := match e_lab e with None => [o] | Some l => filter (fun t => has_label (wa_aut S) o t (Some l)) (tos (wa_aut S) o) end) (s := s) as [r [E H]]; auto.
      + apply lle_refl.
      + apply lle_trans.
      + intros ot s1 s2 _ L [R|R]; [|right; apply L; auto]. destruct (ext_relaxed s1 s2 _ _ _ _ _ L R) as [K|[_ K]]; auto.
      + intros s1 ot Hot [HI1 Hs1]. unfold sp_target_body.
        assert (HP1: pair (sp_pr (fst s1)) id = Some (from, o)) by (eapply ext_pair; [apply (pi_le _ _ _ _ _ HI1)|auto]).
        pose proof (pi_base _ _ _ _ _ HI1) as SB1.
        assert (Hd : exists d, dist (fst s1) id = Some d). { apply (dist_ex _ _ SB1). apply (pair_lt n _ _ _ HF HS _ _ (pb_0 _ _ _ _ _ (sb_base _ SB1))). eauto. }
        destruct Hd as [d Hd]. assert (Hd0 := dist_ge _ _ _ SB1 Hd).
        assert (HJ: JS from o (e_lab e) (wF e) (e_dst e) ot).
        { rewrite He'. destruct (e_lab e) as [l|] eqn:El; cbn.
          - apply filter_In in Hot. destruct Hot as [_ Hot]. apply has_label_spec in Hot. ands; auto.
          - destruct Hot as [<-|[]]. left. ands; auto. }
        destruct (relax_spec E0 sp 0%Z None s1 id from o (e_dst e) ot [e_lab e] (e_lab e) (wF e) etp d HI1 HP1 Hd Hd0) as [p1 [fr [id' [E1 [p2 [E2 [r [E3 H]]]]]]]].
        { intros l [<-|[]]. eapply jstep_joint; eauto. } { left; auto. } { auto. }
        rewrite E1. cbn [obind fst snd]. cbn [ofold] in E2.
        destruct (pr_add_edge p1 id (e_lab e) id') as [p2'|] eqn:Ea; [|discriminate]. cbn in E2. injection E2 as ->. cbn [obind].
        exists r. split; [exact E3|]. destruct r as [s2|p]; auto. destruct H as [K1 [K2 K3]]. unfold IN. ands; auto.
        * destruct K2 as (_ & K2 & _). congruence.
        * left. apply K3; [left; auto|lia].
      + split; auto.
      + exists r. split; auto. destruct r as [s'|p]; auto. destruct H as [K1 [K2 K3]]. ands; auto. intros ot Hot. cbn [fst snd] in *. apply K3.
        destruct (e_lab e) as [l|]; [|left; auto]. apply filter_In. split; [apply tos_In; [apply WS|eauto]|apply has_label_spec; auto].
    - rewrite E. cbn [obind]. destruct r as [[sp1 wt1]|sp1].
      + destruct H as [[I1 Hs1] [L1 H]]. cbn [fst snd] in *.
        assert (PI : pinv EF sp 0%Z None (sp1, wt1)).
        { destruct I1. cbn [fst snd] in *. constructor; cbn [fst snd]; auto.
          - rewrite Hs1. intros u [].
          - intros u Hu Hns. destruct (pi_cw0 u Hu Hns) as [C|C]; auto.
            (* the moves over the new edge *)
            destruct (proj1 (pair_lt n _ _ _ HF HS _ u (pb_0 _ _ _ _ _ (sb_base _ pi_base0))) Hu) as [[a b] HPu].
            destruct (Nat.lt_ge_cases u (psz (sp_pr sp))) as [Lu|Lu].
            + destruct (proj1 (pair_lt n _ _ _ HF HS _ u B) Lu) as [[a0 b0] HP0].
              assert (K := ext_pair n _ _ _ _ (proj1 (proj1 L1)) HP0). cbn [fst] in K. rewrite HPu in K. injection K as <- <-.
              destruct (Nat.eq_dec a from) as [->|Hne].
              * assert (Hin : In (b, u) fs) by (apply Hfs; auto). specialize (H _ Hin). unfold QQ in H. cbn [fst snd] in H.
                assert (DEC : forall x y : Z * nat, {x = y} + {x <> y}) by (decide equality; [apply Nat.eq_dec|apply Z.eq_dec]).
                destruct (in_dec DEC (match dist sp1 u with Some d => d | None => 0%Z end, u) (pq wt1)) as [Hw|Hw].
                { right. destruct (proj1 (dist_ex sp1 u pi_base0) Hu) as [d Hd]. exists d. cbn [fst snd]. split; auto. rewrite Hd in Hw. auto. }
                left. intros a1 b1 l v a' b' HPa HJ. rewrite HPu in HPa. injection HPa as <- <-.
                assert (NW : ~ waits (sp1, wt1) u). { intros (d & Hd & Hi). cbn [fst snd] in *. rewrite Hd in Hw. auto. }
                destruct l as [x|]; cbn in HJ.
                -- destruct HJ as (J1 & J2 & ->). destruct (HE _ _ _ J1) as [J3|(_ & J4 & J5)].
                   ++ apply (C from b (Some x) _ a' b' HPu). cbn. ands; auto.
                   ++ rewrite J5, J4. rewrite <- He'. destruct (H b') as [R|R]; auto; [|contradiction]. rewrite <- J4. auto.
                -- destruct HJ as [(J1 & -> & ->)|(J1 & -> & ->)].
                   ++ destruct (HE _ _ _ J1) as [J3|(_ & J4 & J5)].
                      ** apply (C from b None _ a' b HPu). cbn. left. ands; auto.
                      ** rewrite J5, J4. rewrite <- He'. destruct (H b) as [R|R]; auto; [|contradiction]. rewrite <- J4. auto.
                   ++ apply (C from b None _ from b' HPu). cbn. right. ands; auto.
              * left. intros a1 b1 l v a' b' HPa HJ. rewrite HPu in HPa. injection HPa as <- <-. apply (C a b l v a' b' HPu).
                destruct l as [x|]; cbn in *.
                -- destruct HJ as (J1 & J2 & J3). ands; auto. destruct (HE _ _ _ J1) as [J4|(J4 & _)]; auto. contradiction.
                -- destruct HJ as [(J1 & J2 & J3)|J]; auto. left. ands; auto. destruct (HE _ _ _ J1) as [J4|(J4 & _)]; auto. contradiction.
            + (* a new state waits *) right. apply L1. right. cbn [fst]. split.
              * destruct (dist sp u) eqn:Ed; auto. assert (u < psz (sp_pr sp)) by (apply (dist_ex _ u SB); eauto). lia.
              * destruct (proj1 (dist_ex sp1 u pi_base0) Hu) as [d Hd]. congruence. }
        destruct (sp_construct_spec etp (sp_fuel n F S) sp 0%Z (sp1, wt1) PI) as (b & sp' & E' & O); [unfold sp_fuel; lia|]. eauto.
      + destruct H as (K1 & K2 & K3). exists true, sp1. split; auto. unfold sout. ands; auto; [tauto|discriminate].
  Qed.

  (** *** What the weights mean *)
  Lemma b_find_small : forall sp q, sbase sp -> q < n -> b_find q (sp_best sp) = None.
  Proof. intros sp q SB H. destruct (b_find q (sp_best sp)) as [[[f l] w]|] eqn:E; auto. apply (sb_back _ SB) in E. lia. Qed.
  Lemma bchain_det : forall sp, sbase sp -> forall q k, bchain (sp_best sp) q k -> forall k', bchain (sp_best sp) q k' -> k = k'.
  Proof.
    intros sp SB q k C. induction C as [q Hq|q f l w k Hb Hc IH]; intros k' C'; inversion C' as [q1 Hq1|q1 f1 l1 w1 k1 Hb1 Hc1]; subst; auto.
    - rewrite b_find_small in Hb1; auto. discriminate.
    - rewrite b_find_small in Hb; auto. discriminate.
    - rewrite Hb in Hb1. injection Hb1 as <- <- <-. f_equal. auto.
  Qed.
  Lemma bchain_nd : forall sp, sbase sp -> forall q k, bchain (sp_best sp) q k -> NoDup k.
  Proof.
    intros sp SB q k C. induction C as [q Hq|q f l w k Hb Hc IH]; [repeat constructor; auto|]. constructor; auto. intros Hin.
    assert (K : exists k', bchain (sp_best sp) q k' /\ length k' <= length k).
    { clear - Hc Hin. induction Hc as [q0 Hq|q0 f0 l0 w0 k Hb Hc IH].
      - destruct Hin as [<-|[]]. exists [q0]. split; [apply bc_nil; auto|auto].
      - destruct Hin as [<-|Hin]; [exists (q0 :: k); split; auto; eapply bc_cons; eauto|]. destruct (IH Hin) as (k' & K1 & K2). exists k'. split; auto. cbn. lia. }
    destruct K as (k' & K1 & K2). assert (E := bchain_det sp SB _ _ K1 (q :: k) ltac:(eapply bc_cons; eauto)). subst k'. cbn in K2. lia.
  Qed.
  Lemma bchain_len : forall sp, sbase sp -> forall q k, bchain (sp_best sp) q k -> q < psz (sp_pr sp) -> length k <= psz (sp_pr sp).
  Proof.
    intros sp SB q k C Hq. rewrite <- (seq_length (psz (sp_pr sp)) 0). apply NoDup_incl_length; [eapply bchain_nd; eauto|].
    intros x Hx. apply in_seq. split; [lia|]. cbn. assert (Sz := pb_size _ _ _ _ _ (pb_0 _ _ _ _ _ (sb_base _ SB))). revert Hq.
    induction C as [q0 Hq0|q0 f l w k Hb Hc IH]; intros Hq.
    - destruct Hx as [<-|[]]. auto.
    - destruct Hx as [<-|Hx]; auto. apply IH; auto. destruct (sb_back _ SB _ _ _ _ Hb) as (_ & d & _ & _ & _ & _ & _ & Hd & _). apply (dist_ex _ f SB). eauto.
  Qed.

  Lemma back_path_spec : forall sp, sbase sp -> forall q k, bchain (sp_best sp) q k -> forall fuel p a b d, length k <= Datatypes.S fuel ->
    ap_front p = q -> valid (aut_edges (pr_aut (sp_pr sp))) p -> pair (sp_pr sp) q = Some (a, b) -> dist sp q = Some d ->
    exists p', back_path fuel sp q p = Some p' /\ valid (aut_edges (pr_aut (sp_pr sp))) p' /\ ap_end p' = ap_end p /\
      exists w1 v, ap_front p' < n /\ word (ap_stack p') = w1 ++ word (ap_stack p) /\ jpath EF ES wF wS (ap_front p') (ap_front p') w1 v a b /\ (v <= d)%Z.
  Proof.
    intros sp SB q k C. induction C as [q Hq|q f l w k Hb Hc IH]; intros fuel p a b d Hl Hp HV HP Hd.
    - exists p. split. { destruct fuel; cbn; rewrite b_find_small; auto. } ands; auto. exists [], 0%Z. rewrite Hp. unfold pr_pair in HP. unfold dist in Hd.
      apply Nat.ltb_lt in Hq as Hq'. rewrite Hq' in HP, Hd. injection HP as <- <-. injection Hd as <-. ands; auto; [constructor|lia].
    - destruct (sb_back _ SB _ _ _ _ Hb) as (Hr & d0 & v0 & a0 & b0 & a1 & b1 & K1 & K2 & K3 & K4 & K5 & K6). rewrite HP in K4. injection K4 as <- <-.
      destruct fuel as [|fuel]. { cbn in Hl. destruct k; [inversion Hc|]. cbn in Hl. lia. }
      cbn [back_path]. rewrite Hb. destruct (IH fuel (ap_emplace p f l) a0 b0 d0) as (p' & E & V & En & w1 & v & L & W & J & Lv).
      + cbn in Hl. lia.
      + reflexivity.
      + unfold valid, ap_emplace in *. cbn [ap_end ap_edges]. split; auto. rewrite <- ap_front_pfront, Hp. auto.
      + auto.
      + auto.
      + exists p'. split; auto. split; auto. split; [rewrite En; auto|]. exists (w1 ++ olist l), (v + v0)%Z. ands; auto.
        * rewrite W. unfold ap_stack, ap_emplace, word. cbn [ap_edges map fst flat_map]. rewrite <- app_assoc. destruct l; auto.
        * eapply jp_snoc; eauto.
        * assert (Ed : d = w). { unfold dist in Hd. destruct (Nat.ltb_spec q n); [lia|]. unfold best in Hd. rewrite Hb in Hd. injection Hd as <-. auto. } lia.
  Qed.

  Lemma sattained : forall sp id a b d, sbase sp -> pair (sp_pr sp) id = Some (a, b) -> dist sp id = Some d ->
    exists p w v, p < n /\ jpath EF ES wF wS p p w v a b /\ (v <= d)%Z.
  Proof.
    intros sp id a b d SB HP Hd. assert (L : id < psz (sp_pr sp)) by (apply (dist_ex _ id SB); eauto). destruct (sb_chain _ SB id L) as [k C].
    destruct (back_path_spec sp SB id k C (length k) (mk_apth id []) a b d) as (p' & _ & _ & _ & w1 & v & K1 & _ & K3 & K4); auto; [exact I|]. exists (ap_front p'), w1, v. auto.
  Qed.

  Lemma scomplete : forall E sp, sbase sp -> (forall id, id < psz (sp_pr sp) -> clean E sp id) -> forall p w v a b, p < n ->
    jpath E ES wF wS p p w v a b -> exists id d, pair (sp_pr sp) id = Some (a, b) /\ dist sp id = Some d /\ (d <= v)%Z.
  Proof.
    intros E sp SB HC p w v a b Hp J. induction J as [|w v a1 b1 l v1 a2 b2 J IH HS1].
    - exists p, 0%Z. unfold pr_pair, dist. apply Nat.ltb_lt in Hp. rewrite Hp. ands; auto. lia.
    - destruct IH as (id & d & K1 & K2 & K3). assert (L : id < psz (sp_pr sp)) by (apply (dist_ex _ id SB); eauto).
      destruct (HC id L _ _ _ _ _ _ K1 HS1) as (id' & d1 & d' & Q1 & _ & Q3 & Q4 & Q5). rewrite K2 in Q3. injection Q3 as <-. exists id', d'. ands; auto. lia.
  Qed.

  (** The path returned and its weight. *)
  Lemma path_shortest_spec : forall sp, sbase sp ->
    (has_accepting (sp_pr sp) = false /\ path_shortest sp = Some None) \/
    exists p d a b w v, path_shortest sp = Some (Some (p, d)) /\ valid (aut_edges (pr_aut (sp_pr sp))) p /\ ap_front p < n /\
      pair (sp_pr sp) (ap_end p) = Some (a, b) /\ aut_final (wa_aut F) a /\ aut_final (wa_aut S) b /\ word (ap_stack p) = w /\
      jpath EF ES wF wS (ap_front p) (ap_front p) w v a b /\ (v <= d)%Z /\
      forall q d', aut_final (pr_aut (sp_pr sp)) q -> best sp q = Some d' -> (d <= d')%Z.
  Proof.
    intros sp SB. unfold path_shortest. destruct (has_accepting (sp_pr sp)) eqn:HA; auto. right.
    destruct (min_accepting_spec sp SB HA) as (q & d & E & Hf & Hb & M). rewrite E. cbn [obind fst snd].
    destruct (final_best sp q SB Hf) as [Hq _]. assert (Hd : dist sp q = Some d) by (unfold dist; destruct (Nat.ltb_spec q n); [lia|auto]).
    assert (L : q < psz (sp_pr sp)) by (apply (dist_ex _ q SB); eauto). pose proof (pb_0 _ _ _ _ _ (sb_base _ SB)) as B.
    destruct (proj1 (pair_lt n _ _ _ HF HS (sp_pr sp) q B) L) as [[a b] HP]. destruct (sb_chain _ SB q L) as [k C].
    destruct (back_path_spec sp SB q k C (a_size (pr_aut (sp_pr sp))) (mk_apth q []) a b d) as (p' & E' & V & En & w1 & v & K1 & K2 & K3 & K4); auto.
    { assert (K := bchain_len sp SB q k C L). unfold psz in K. lia. } { exact I. }
    rewrite E'. cbn [obind]. exists p', d, a, b, w1, v. cbn [ap_end] in En. rewrite En. apply (pb_acc _ _ _ _ _ B _ _ _ HP) in Hf. ands; auto; try tauto.
    rewrite K2. unfold ap_stack, word. cbn. apply app_nil_r.
  Qed.
  End Comp.

  (** *** A larger first automaton *)
  Lemma sbase_mono : forall F S F' sp, sbase F S sp -> n <= a_size (wa_aut F) -> n <= a_size (wa_aut S) ->
    (forall x y z, aut_edges (wa_aut F) x y z -> aut_edges (wa_aut F') x y z /\ w_of F' (mk_edge x y z) = w_of F (mk_edge x y z)) ->
    a_size (wa_aut F) <= a_size (wa_aut F') -> (forall q, q < a_size (wa_aut F) -> nth_error (a_acc (wa_aut F')) q = nth_error (a_acc (wa_aut F)) q) ->
    sbase F' S sp.
  Proof.
    intros F S F' sp [B1 B2 B3 B4] HF HS HE L A. constructor; auto.
    - eapply pbase_mono; eauto. intros; apply HE; auto.
    - intros id f l w H. destruct (B3 _ _ _ _ H) as (Hr & d0 & v0 & a0 & b0 & a1 & b1 & K1 & K2 & K3 & K4 & K5 & K6). split; auto. exists d0, v0, a0, b0, a1, b1. ands; auto.
      eapply jstep_mono; eauto.
  Qed.
  Lemma clean_ext : forall F S F' (E : edgeset) sp u, clean F S E sp u -> (forall x y z, E x y z -> w_of F (mk_edge x y z) = w_of F' (mk_edge x y z)) -> clean F' S E sp u.
  Proof.
    intros F S F' E sp u C H a b l v a' b' HP HJ. apply (C a b l v a' b' HP). eapply jstep_mono; eauto.
  Qed.
End Short.
