(** Why the fixed-point saturation of pre* may stop after as many rounds as there are edges: every change of an edge in round t rests on t
    different edges, or the weights of the edge are unbounded. *)
From Coq Require Import List Arith Lia Bool ZArith.
From Verif Require Import Base BaseFacts Spec SpecFacts PdaModel PdaProof AutModel AutProof PreStarModel PreStarProof
  PostStarModel SolverModel ProductModel UtilModel ShortSpec ShortModel PostShortProof PreShortModel PreShortProof FixModel.
Import ListNotations.
Local Open Scope Z_scope.

Definition sg (mx : bool) (z : Z) : Z := if mx then - z else z.
Lemma sg_add : forall mx a b, sg mx (a + b) = sg mx a + sg mx b.
Proof. intros []; cbn; intros; lia. Qed.
Lemma sg_0 : forall mx, sg mx 0 = 0.
Proof. intros []; auto. Qed.
Lemma f_less_sg : forall mx a b, f_less mx (Some a) (Some b) = true <-> sg mx a < sg mx b.
Proof. intros [] a b; cbn; rewrite Z.ltb_lt; lia. Qed.

Section Rules.
  Variable P : pda.
  Variable E0 : list edge.
  Notation deriv := (kderiv P E0).

  (** Instances of the rules of the saturation. *)
  Definition Rp (e : edge) (rw : Z) : Prop := exists p id r ls l, get_rule P p id = Some (r, ls) /\ r_op r = POP /\ matches (pd_nlab P) ls l /\
    e = mk_edge p (Some l) (r_to r) /\ rw = r_w r.
  Definition R1 (e c : edge) (rw : Z) : Prop := exists p id r ls l, get_rule P p id = Some (r, ls) /\ matches (pd_nlab P) ls l /\
    e = mk_edge p (Some l) (e_dst c) /\ rw = r_w r /\ e_src c = r_to r /\
    ((r_op r = SWAP /\ e_lab c = Some (r_opl r)) \/ (r_op r = NOOP /\ e_lab c = Some l)).
  Definition R2 (e c1 c2 : edge) (rw : Z) : Prop := exists p id r ls l, get_rule P p id = Some (r, ls) /\ r_op r = PUSH /\ matches (pd_nlab P) ls l /\
    e = mk_edge p (Some l) (e_dst c2) /\ rw = r_w r /\ e_src c1 = r_to r /\ e_lab c1 = Some (r_opl r) /\ e_dst c1 = e_src c2 /\ e_lab c2 = Some l.

  Lemma Rp_deriv : forall e rw, Rp e rw -> deriv e rw.
  Proof. intros e rw (p & id & r & ls & l & G & O & M & -> & ->). eapply kd_pop; eauto. Qed.
  Lemma R1_deriv : forall e c rw w, R1 e c rw -> deriv c w -> deriv e (w + rw).
  Proof.
    intros e [a x q] rw w (p & id & r & ls & l & G & M & -> & -> & Es & [[O El]|[O El]]) D; cbn [e_src e_lab e_dst] in *; subst.
    - eapply kd_swap; eauto.
    - eapply kd_noop; eauto.
  Qed.
  Lemma R2_deriv : forall e c1 c2 rw w1 w2, R2 e c1 c2 rw -> deriv c1 w1 -> deriv c2 w2 -> deriv e (rw + w1 + w2).
  Proof.
    intros e [a x s] [b y q] rw w1 w2 (p & id & r & ls & l & G & O & M & -> & -> & Es & El & Ed & El2) D1 D2; cbn [e_src e_lab e_dst] in *; subst.
    eapply kd_push; eauto.
  Qed.
  Lemma R1_dst : forall e c rw, R1 e c rw -> e_dst e = e_dst c.
  Proof. intros e c rw (p & id & r & ls & l & _ & _ & -> & _). reflexivity. Qed.
  Lemma R2_dst : forall e c1 c2 rw, R2 e c1 c2 rw -> e_dst e = e_dst c2 /\ e_dst c1 = e_src c2.
  Proof. intros e c1 c2 rw (p & id & r & ls & l & _ & _ & _ & -> & _ & _ & _ & H & _). auto. Qed.

  Variable mx : bool.
  Notation sg := (sg mx).

  (** The weights of derivations of an edge can be improved for ever. *)
  Definition unb (e : edge) : Prop := forall B, exists w, deriv e w /\ sg w < B.
  (** [ctx x z g]: a derivation of x extends to one of z, which costs g more. *)
  Definition ctx (x z : edge) (g : Z) : Prop := forall w, deriv x w -> deriv z (w + g).

  Lemma ctx_refl : forall x, ctx x x 0.
  Proof. intros x w. rewrite Z.add_0_r. auto. Qed.
  Lemma ctx_trans : forall x y z g1 g2, ctx x y g1 -> ctx y z g2 -> ctx x z (g1 + g2).
  Proof. intros x y z g1 g2 H1 H2 w D. rewrite Z.add_assoc. auto. Qed.
  Lemma ctx_unb : forall x z g, ctx x z g -> unb x -> unb z.
  Proof. intros x z g H U B. destruct (U (B - sg g)) as (w & D & L). exists (w + g). split; auto. rewrite sg_add. lia. Qed.
  Lemma R1_ctx : forall e c rw, R1 e c rw -> ctx c e rw.
  Proof. intros e c rw R w D. eapply R1_deriv; eauto. Qed.
  Lemma R2_ctx1 : forall e c1 c2 rw w2, R2 e c1 c2 rw -> deriv c2 w2 -> ctx c1 e (rw + w2).
  Proof. intros e c1 c2 rw w2 R D2 w D. replace (w + (rw + w2)) with (rw + w + w2) by lia. eapply R2_deriv; eauto. Qed.
  Lemma R2_ctx2 : forall e c1 c2 rw w1, R2 e c1 c2 rw -> deriv c1 w1 -> ctx c2 e (rw + w1).
  Proof. intros e c1 c2 rw w1 R D1 w D. replace (w + (rw + w1)) with (rw + w1 + w) by lia. eapply R2_deriv; eauto. Qed.

  (** A loop that improves the weight can be repeated. *)
  Lemma pump : forall e g w, ctx e e g -> sg g < 0 -> deriv e w -> unb e.
  Proof.
    intros e g w H L D B.
    assert (IT : forall k : nat, deriv e (w + Z.of_nat k * g)).
    { induction k; [rewrite Z.mul_0_l, Z.add_0_r; auto|]. replace (w + Z.of_nat (S k) * g) with (w + Z.of_nat k * g + g) by lia. auto. }
    assert (SM : forall k : nat, sg (w + Z.of_nat k * g) <= sg w - Z.of_nat k).
    { induction k as [|k IH]; [rewrite Z.mul_0_l, Z.add_0_r; lia|].
      replace (w + Z.of_nat (S k) * g) with (w + Z.of_nat k * g + g) by lia. rewrite sg_add. lia. }
    exists (w + Z.of_nat (Z.to_nat (sg w - B + 1)) * g). split; auto. specialize (SM (Z.to_nat (sg w - B + 1))).
    destruct (Z.le_gt_cases (sg w - B + 1) 0) as [K|K]; [|rewrite Z2Nat.id in * by lia; lia].
    replace (Z.to_nat (sg w - B + 1)) with O in * by lia. change (Z.of_nat 0) with 0 in *. lia.
  Qed.

  (** *** Chains *)
  Section Chain.
    Variable ES : list edge.
    Variable V : edge -> Z.
    Variable cr : edge -> nat.
    Variable bt : nat -> nat.
    (** The value [v] that edge [z] got in round [t] rests on the different edges [L], one for each of the rounds t, t-1, ..., b. *)
    Record chain (z : edge) (v : Z) (t : nat) (L : list edge) (b : nat) : Prop := {
      ch_hd : exists l, L = z :: l;
      ch_len : (length L + b = S t)%nat;
      ch_nd : NoDup L;
      ch_rnd : forall i x, nth_error L i = Some x -> (cr x + i <= t)%nat;
      ch_base : forall x, In x L -> (b <= cr x)%nat /\ In x ES;
      ch_ctx : forall x, In x L -> exists u g, ctx x z g /\ v = u + g /\ sg (V x) <= sg u;
      ch_bt : (b <= bt (e_dst z))%nat }.
    Definition chain_ge (z : edge) (v : Z) (k t : nat) : Prop := exists r L b, (k <= r <= t)%nat /\ chain z v r L b.
  End Chain.

  Lemma chain_mono : forall ES V cr bt ES' V' cr' bt' z v t L b, (forall x, In x ES -> In x ES' /\ cr' x = cr x /\ sg (V' x) <= sg (V x)) ->
    bt' (e_dst z) = bt (e_dst z) -> chain ES V cr bt z v t L b -> chain ES' V' cr' bt' z v t L b.
  Proof.
    intros ES V cr bt ES' V' cr' bt' z v t L b H Hb [C1 C2 C3 C4 C5 C6 C7]. constructor; auto.
    - intros i x Hx. destruct (H x) as (_ & -> & _); [|auto]. apply C5. eapply nth_error_In; eauto.
    - intros x Hx. destruct (C5 x Hx) as [K1 K2]. destruct (H x K2) as (K3 & -> & _). auto.
    - intros x Hx. destruct (C6 x Hx) as (u & g & K1 & K2 & K3). exists u, g. ands; auto. destruct (H x (proj2 (C5 x Hx))) as (_ & _ & K4). lia.
    - rewrite Hb. auto.
  Qed.
  Lemma chain_ge_mono : forall ES V cr bt ES' V' cr' bt' z v k t t', (forall x, In x ES -> In x ES' /\ cr' x = cr x /\ sg (V' x) <= sg (V x)) ->
    bt' (e_dst z) = bt (e_dst z) -> (t <= t')%nat -> chain_ge ES V cr bt z v k t -> chain_ge ES' V' cr' bt' z v k t'.
  Proof. intros ES V cr bt ES' V' cr' bt' z v k t t' H Hb Ht (r & L & b & K1 & K2). exists r, L, b. split; [lia|]. eapply chain_mono; eauto. Qed.

  Lemma skipn_nth : forall (A : Type) k (l : list A) i, nth_error (skipn k l) i = nth_error l (k + i).
  Proof. induction k as [|k IH]; intros l i; auto. destruct l; cbn; auto. destruct i; auto. Qed.
  Lemma skipn_In : forall (A : Type) k (l : list A) x, In x (skipn k l) -> In x l.
  Proof. intros A k l x H. rewrite <- (firstn_skipn k l). apply in_or_app. auto. Qed.
  Lemma skipn_NoDup : forall (A : Type) k (l : list A), NoDup l -> NoDup (skipn k l).
  Proof. induction k as [|k IH]; intros l H; auto. destruct l; cbn; auto. inversion H; auto. Qed.
  Lemma NoDup_app2 : forall (A : Type) (l1 l2 : list A), NoDup l1 -> NoDup l2 -> (forall x, In x l1 -> ~ In x l2) -> NoDup (l1 ++ l2).
  Proof.
    induction l1 as [|a l1 IH]; intros l2 H1 H2 D; auto. inversion H1; subst. cbn. constructor.
    - intros K. apply in_app_or in K. destruct K; auto. apply (D a); auto. left; auto.
    - apply IH; auto. intros x Hx. apply D. right; auto.
  Qed.

    (** The part of a chain up to round [k]. *)
    Lemma chain_part : forall ES V cr bt z v r L b k, chain ES V cr bt z v r L b -> (k <= r)%nat -> (b <= S k)%nat -> let M := skipn (r - k) L in
      (length M + b = S k)%nat /\ NoDup M /\ (forall i x, nth_error M i = Some x -> (cr x + i <= k)%nat) /\ (forall x, In x M -> In x L).
    Proof.
      intros ES V cr bt z v r L b k [C1 C2 C3 C4 C5 C6 C7] Hk Hb M. subst M. ands.
      - rewrite skipn_length. lia.
      - apply skipn_NoDup; auto.
      - intros i x Hx. rewrite skipn_nth in Hx. apply C4 in Hx. lia.
      - intros x Hx. eapply skipn_In; eauto.
    Qed.

  Section Event.
    Variable ES : list edge.
    Variable V : edge -> Z.
    Variable cr : edge -> nat.
    Variable bt : nat -> nat.
    Variable t : nat.
    Variable e : edge.
    Variable vn : Z.
    Hypothesis He : In e ES -> (bt (e_dst e) <= cr e <= t)%nat /\ sg vn < sg (V e) /\ deriv e (V e).
    Hypothesis Hf : ~ In e ES -> (bt (e_dst e) <= t)%nat.

    (** The state after the edge [e] has got the value [vn] in round [t]. *)
    Definition ES1 : list edge := if in_dec edge_eq_dec e ES then ES else e :: ES.
    Definition V1 : edge -> Z := fun x => if edge_eq_dec x e then vn else V x.
    Definition cr1 : edge -> nat := fun x => if in_dec edge_eq_dec e ES then cr x else if edge_eq_dec x e then t else cr x.

    Lemma ev_old : forall x, In x ES -> In x ES1 /\ cr1 x = cr x /\ sg (V1 x) <= sg (V x).
    Proof.
      intros x Hx. unfold ES1, cr1, V1. destruct (in_dec edge_eq_dec e ES) as [H|H].
      - ands; auto. destruct (edge_eq_dec x e) as [->|]; [apply He in H; lia|lia].
      - destruct (edge_eq_dec x e) as [->|]; [contradiction|]. ands; auto; [right; auto|lia].
    Qed.
    Lemma ev_new : In e ES1 /\ V1 e = vn /\ (bt (e_dst e) <= cr1 e <= t)%nat.
    Proof.
      unfold ES1, cr1, V1. destruct (edge_eq_dec e e) as [_|]; [|congruence]. destruct (in_dec edge_eq_dec e ES) as [H|H]; ands; auto; try (apply He in H; lia); try (apply Hf in H; lia). left; auto.
    Qed.

    Lemma chain_cons : forall M b, (length M + b = t)%nat -> NoDup M -> (forall i x, nth_error M i = Some x -> (cr x + i < t)%nat) ->
      (forall x, In x M -> (b <= cr x)%nat /\ In x ES /\ exists u g, ctx x e g /\ vn = u + g /\ sg (V x) <= sg u) ->
      (b <= bt (e_dst e))%nat -> unb e \/ chain ES1 V1 cr1 bt e vn t (e :: M) b.
    Proof.
      intros M b Hl Hn Hr Hb Hbt. destruct (in_dec edge_eq_dec e M) as [K|K].
      - left. destruct (Hb e K) as (_ & Hi & u & g & K1 & K2 & K3). destruct (He Hi) as (_ & K4 & K5). apply (pump e g (V e)); auto. rewrite K2, sg_add in K4. lia.
      - right. destruct ev_new as (N1 & N2 & N3). constructor.
        + eauto.
        + cbn. lia.
        + constructor; auto.
        + intros [|i] x Hx; cbn in Hx; [injection Hx as <-; lia|]. destruct (ev_old x) as (_ & -> & _); [apply Hb; eapply nth_error_In; eauto|]. apply Hr in Hx. lia.
        + intros x [<-|Hx]; [split; auto; lia|]. destruct (Hb x Hx) as (B1 & B2 & _). destruct (ev_old x B2) as (B3 & -> & _). auto.
        + intros x [<-|Hx]; [exists vn, 0; rewrite N2; ands; [apply ctx_refl|lia..]|].
          destruct (Hb x Hx) as (_ & B2 & u & g & B4 & B5 & B6). exists u, g. ands; auto. destruct (ev_old x B2) as (_ & _ & B7). lia.
        + auto.
    Qed.

    Lemma ev_pop : forall rw, Rp e rw -> vn = rw -> bt (e_dst e) = t -> chain ES1 V1 cr1 bt e vn t [e] t.
    Proof.
      intros rw R Hv Hb. destruct ev_new as (N1 & N2 & N3). constructor.
      - eauto.
      - reflexivity.
      - constructor; [intros []|constructor].
      - intros [|i] x Hx; cbn in Hx; [injection Hx as <-; lia|destruct i; discriminate].
      - intros x [<-|[]]. split; auto. lia.
      - intros x [<-|[]]. exists vn, 0. rewrite N2. ands; [apply ctx_refl|lia..].
      - lia.
    Qed.

    Hypothesis Ht : (1 <= t)%nat.
    Lemma ev_1 : forall c w rw r L b, R1 e c rw -> vn = w + rw -> chain ES V cr bt c w r L b -> (t <= S r)%nat -> (r <= t)%nat ->
      unb e \/ exists L' b', chain ES1 V1 cr1 bt e vn t L' b'.
    Proof.
      intros c w rw r L b R Hv Ch K1 K2. assert (Bb := ch_bt _ _ _ _ _ _ _ _ _ Ch). assert (Bl := ch_len _ _ _ _ _ _ _ _ _ Ch).
      destruct (Nat.le_gt_cases b t) as [Lb|Lb].
      2: { (* the chain of c consists of c in this round only *)
        right. exfalso. destruct (ch_hd _ _ _ _ _ _ _ _ _ Ch) as [l ->]. cbn in Bl. lia. }
      destruct (chain_part _ _ _ _ _ _ _ _ _ (t - 1) Ch) as (P1 & P2 & P3 & P4); [lia|lia|].
      destruct (chain_cons (skipn (r - (t - 1)) L) b) as [U|K]; auto.
      - lia.
      - intros i x Hx. apply P3 in Hx. lia.
      - intros x Hx. apply P4 in Hx. destruct (ch_base _ _ _ _ _ _ _ _ _ Ch _ Hx) as [B1 B2]. ands; auto. destruct (ch_ctx _ _ _ _ _ _ _ _ _ Ch _ Hx) as (u & g & C1 & C2 & C3).
        exists u, (g + rw). ands; auto; [|lia]. eapply ctx_trans; eauto. apply R1_ctx; auto.
      - rewrite (R1_dst _ _ _ R). auto.
      - right. eauto.
    Qed.
    Lemma ev_2b : forall c1 c2 w1 w rw r L b, R2 e c1 c2 rw -> vn = rw + w1 + w -> deriv c1 w1 -> chain ES V cr bt c2 w r L b -> (t <= S r)%nat -> (r <= t)%nat ->
      unb e \/ exists L' b', chain ES1 V1 cr1 bt e vn t L' b'.
    Proof.
      intros c1 c2 w1 w rw r L b R Hv D1 Ch K1 K2. assert (Bb := ch_bt _ _ _ _ _ _ _ _ _ Ch). assert (Bl := ch_len _ _ _ _ _ _ _ _ _ Ch).
      destruct (ch_hd _ _ _ _ _ _ _ _ _ Ch) as [l El]. assert (Lb : (b <= t)%nat) by (subst L; cbn in Bl; lia).
      destruct (chain_part _ _ _ _ _ _ _ _ _ (t - 1) Ch) as (P1 & P2 & P3 & P4); [lia|lia|].
      destruct (chain_cons (skipn (r - (t - 1)) L) b) as [U|K]; auto.
      - lia.
      - intros i x Hx. apply P3 in Hx. lia.
      - intros x Hx. apply P4 in Hx. destruct (ch_base _ _ _ _ _ _ _ _ _ Ch _ Hx) as [B1 B2]. ands; auto. destruct (ch_ctx _ _ _ _ _ _ _ _ _ Ch _ Hx) as (u & g & C1 & C2 & C3).
        exists u, (g + (rw + w1)). ands; auto; [|lia]. eapply ctx_trans; eauto. eapply R2_ctx2; eauto.
      - rewrite (proj1 (R2_dst _ _ _ _ R)). auto.
      - right. eauto.
    Qed.
    Lemma ev_2a : forall c1 c2 w w2 rw r L b r2 L2 b2, R2 e c1 c2 rw -> vn = rw + w + w2 -> deriv c1 w -> deriv c2 w2 ->
      chain ES V cr bt c1 w r L b -> (t <= S r)%nat -> (r <= t)%nat -> chain ES V cr bt c2 w2 r2 L2 b2 -> (bt (e_src c2) <= S r2)%nat ->
      unb e \/ exists L' b', chain ES1 V1 cr1 bt e vn t L' b'.
    Proof.
      intros c1 c2 w w2 rw r L b r2 L2 b2 R Hv D1 D2 Ch K1 K2 Ch2 K3. destruct (R2_dst _ _ _ _ R) as [Ed Es].
      assert (Bb := ch_bt _ _ _ _ _ _ _ _ _ Ch). assert (Bl := ch_len _ _ _ _ _ _ _ _ _ Ch). assert (Bb2 := ch_bt _ _ _ _ _ _ _ _ _ Ch2). assert (Bl2 := ch_len _ _ _ _ _ _ _ _ _ Ch2).
      destruct (ch_hd _ _ _ _ _ _ _ _ _ Ch) as [l El]. assert (Lb : (b <= t)%nat) by (subst L; cbn in Bl; lia).
      destruct (chain_part _ _ _ _ _ _ _ _ _ (t - 1) Ch) as (P1 & P2 & P3 & P4); [lia|lia|].
      assert (CX1 : forall x, In x (skipn (r - (t - 1)) L) -> (b <= cr x)%nat /\ In x ES /\ exists u g, ctx x e g /\ vn = u + g /\ sg (V x) <= sg u).
      { intros x Hx. apply P4 in Hx. destruct (ch_base _ _ _ _ _ _ _ _ _ Ch _ Hx) as [B1 B2]. ands; auto. destruct (ch_ctx _ _ _ _ _ _ _ _ _ Ch _ Hx) as (u & g & C1 & C2 & C3).
        exists u, (g + (rw + w2)). ands; auto; [|lia]. eapply ctx_trans; eauto. eapply R2_ctx1; eauto. }
      destruct (Nat.le_gt_cases b (bt (e_dst e))) as [B1|B1].
      - destruct (chain_cons (skipn (r - (t - 1)) L) b) as [U|K]; auto.
        + lia.
        + intros i x Hx. apply P3 in Hx. lia.
        + right. eauto.
      - rewrite Ed in B1. rewrite Es in Bb. destruct (chain_part _ _ _ _ _ _ _ _ _ (b - 1) Ch2) as (Q1 & Q2 & Q3 & Q4); [lia|lia|].
        assert (CX2 : forall x, In x (skipn (r2 - (b - 1)) L2) -> (b2 <= cr x)%nat /\ In x ES /\ exists u g, ctx x e g /\ vn = u + g /\ sg (V x) <= sg u).
        { intros x Hx. apply Q4 in Hx. destruct (ch_base _ _ _ _ _ _ _ _ _ Ch2 _ Hx) as [B3 B4]. ands; auto. destruct (ch_ctx _ _ _ _ _ _ _ _ _ Ch2 _ Hx) as (u & g & C1 & C2 & C3).
          exists u, (g + (rw + w)). ands; auto; [|lia]. eapply ctx_trans; eauto. eapply R2_ctx2; eauto. }
        destruct (chain_cons (skipn (r - (t - 1)) L ++ skipn (r2 - (b - 1)) L2) b2) as [U|K]; auto.
        + rewrite app_length. lia.
        + apply NoDup_app2; auto. intros x H1 H2. apply CX1 in H1. destruct H1 as [H1 _]. apply In_nth_error in H2. destruct H2 as [i H2]. apply Q3 in H2. lia.
        + intros i x Hx. destruct (Nat.lt_ge_cases i (length (skipn (r - (t - 1)) L))) as [I|I].
          * rewrite nth_error_app1 in Hx by auto. apply P3 in Hx. lia.
          * rewrite nth_error_app2 in Hx by auto. apply Q3 in Hx. lia.
        + intros x Hx. apply in_app_or in Hx. destruct Hx as [Hx|Hx]; auto. destruct (CX1 x Hx) as (H1 & H2 & H3). ands; auto. lia.
        + rewrite Ed. lia.
        + right. eauto.
    Qed.
  End Event.

  (** A chain that goes back to the first round is longer than the list of edges allows; along a path to an accepting state every chain does. *)
  Section Path.
    Variable ES : list edge.
    Variable V : edge -> Z.
    Variable cr : edge -> nat.
    Variable bt : nat -> nat.
    Variable fin : nat -> Prop.
    Hypothesis FB : forall q, fin q -> bt q = O.
    Hypothesis CB : forall x, In x ES -> (bt (e_src x) <= S (cr x))%nat.
    Hypothesis CH : forall x, In x ES -> unb x \/ exists r L b, (cr x <= r)%nat /\ chain ES V cr bt x (V x) r L b.
    Inductive epath : nat -> list edge -> nat -> Prop :=
    | ep_nil : forall q, epath q [] q
    | ep_cons : forall x l f, In x ES -> epath (e_dst x) l f -> epath (e_src x) (x :: l) f.

    Lemma path_unb : forall q l f, epath q l f -> fin f -> forall M b, NoDup M -> (forall x, In x M -> (b <= cr x)%nat /\ In x ES) -> (length ES < length M + b)%nat -> (b <= bt q)%nat ->
      exists x, In x l /\ unb x.
    Proof.
      intros q l f H Hf. induction H as [q|x l f Hx Hp IH]; intros M b Hn Hb Hl Hq.
      - rewrite (FB _ Hf) in Hq. assert (b = 0)%nat by lia. subst b.
        assert (K : (length M <= length ES)%nat) by (apply NoDup_incl_length; [auto|intros x Hx; apply Hb; auto]). lia.
      - destruct (CH x Hx) as [U|(r & L & b2 & K1 & Ch)]; [exists x; split; [left|]; auto|].
        assert (Bb := ch_bt _ _ _ _ _ _ _ _ _ Ch). assert (Bl := ch_len _ _ _ _ _ _ _ _ _ Ch).
        destruct (Nat.le_gt_cases b (bt (e_dst x))) as [B1|B1].
        + destruct (IH Hf M b) as (y & Y1 & Y2); auto. exists y. split; auto. right; auto.
        + assert (CBx := CB x Hx). destruct (chain_part _ _ _ _ _ _ _ _ _ (b - 1) Ch) as (Q1 & Q2 & Q3 & Q4); [lia|lia|].
          destruct (IH Hf (M ++ skipn (r - (b - 1)) L) b2) as (y & Y1 & Y2); auto.
          * apply NoDup_app2; auto. intros y H1 H2. apply Hb in H1. apply In_nth_error in H2. destruct H2 as [i H2]. apply Q3 in H2. lia.
          * intros y Hy. apply in_app_or in Hy. destruct Hy as [Hy|Hy].
            -- destruct (Hb y Hy). split; auto. lia.
            -- apply Q4 in Hy. apply (ch_base _ _ _ _ _ _ _ _ _ Ch _ Hy).
          * rewrite app_length. lia.
          * exists y. split; auto. right; auto.
    Qed.
  End Path.
End Rules.
