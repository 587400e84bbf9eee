(** PAutomatonFixedPoint: the best weight of the accepted paths. *)
From Coq Require Import List Arith Lia Bool ZArith.
From Verif Require Import Base BaseFacts Spec SpecFacts PdaModel PdaProof AutModel AutProof PreStarModel PreStarProof PreStarLang
  PostStarModel SolverModel ProductModel UtilModel UtilProof ShortSpec ShortModel PostShortProof FixSpec FixModel FixChain FixPre1 FixPre2.
Import ListNotations.

Lemma dup_split : forall (l : list nat) k, (forall x, In x l -> x < k) -> k < length l -> exists a l1 l2 l3, l = l1 ++ a :: l2 ++ a :: l3.
Proof.
  intros l k H L. destruct (ListDec.NoDup_dec Nat.eq_dec l) as [ND|ND].
  - exfalso. assert (Q : length l <= length (seq 0 k)) by (apply NoDup_incl_length; auto; intros x Hx; apply in_seq; specialize (H x Hx); lia). rewrite seq_length in Q. lia.
  - clear H L. induction l as [|x l IH]; [exfalso; apply ND; constructor|]. destruct (in_dec Nat.eq_dec x l) as [I|I].
    + apply in_split in I. destruct I as (l2 & l3 & ->). exists x, [], l2, l3. reflexivity.
    + destruct IH as (a & l1 & l2 & l3 & ->); [intros K; apply ND; constructor; auto|]. exists a, (x :: l1), l2, l3. reflexivity.
Qed.

Section Paths.
  Variable n : nat.
  Variable mx : bool.
  Variable A : faut.
  Let N := a_size (fa_aut A).
  Hypothesis HnN : n <= N.
  Hypothesis RG : forall q l t, aut_edges (fa_aut A) q l t -> q < N /\ t < N.
  Notation E := (aut_edges (fa_aut A)).
  Notation wt := (fun x y z => fa_weight A (mk_edge x y z)).
  Notation fle := (fle mx).

  (** Paths that start in the first n states, by number of edges, and segments; [vs] lists the states after the first one, last first. *)
  Inductive gp : nat -> fwt -> nat -> Prop :=
  | gp_0 : forall s, s < n -> gp 0 (Some 0%Z) s
  | gp_S : forall k v s l t, gp k v s -> E s l t -> gp (S k) (f_add v (wt s l t)) t.
  Inductive seg (a : nat) : list nat -> fwt -> nat -> Prop :=
  | seg_nil : seg a [] (Some 0%Z) a
  | seg_cons : forall vs v s l t, seg a vs v s -> E s l t -> seg a (t :: vs) (f_add v (wt s l t)) t.

  Lemma fadd_assoc : forall a b c, f_add (f_add a b) c = f_add a (f_add b c).
  Proof. intros [a|] [b|] [c|]; cbn; auto. rewrite Z.add_assoc. auto. Qed.
  Lemma fadd_0 : forall a, f_add a (Some 0%Z) = a.
  Proof. intros [a|]; cbn; auto. rewrite Z.add_0_r. auto. Qed.
  Lemma fadd_0l : forall a, f_add (Some 0%Z) a = a.
  Proof. intros [a|]; cbn; auto. Qed.
  Lemma fadd_Some : forall a b x, f_add a b = Some x -> exists y z, a = Some y /\ b = Some z /\ x = (y + z)%Z.
  Proof. intros [a|] [b|] x H; cbn in H; try discriminate. injection H as <-. eauto. Qed.

  Lemma gp_lt : forall k v s, gp k v s -> s < N.
  Proof. intros k v s H. destruct H as [s Hs|k v s l t _ He]; [lia|]. apply (RG _ _ _ He). Qed.
  Lemma seg_lt : forall a vs v s, seg a vs v s -> forall x, In x vs -> x < N.
  Proof. intros a vs v s H. induction H as [|vs v s l t H IH He]; intros x Hx; [destruct Hx|]. destruct Hx as [<-|Hx]; auto. apply (RG _ _ _ He). Qed.
  Lemma gp_seg : forall k v a vs u s, gp k v a -> seg a vs u s -> gp (length vs + k) (f_add v u) s.
  Proof.
    intros k v a vs u s H1 H2. induction H2 as [|vs u s l t H IH He]; cbn [length Nat.add]; [rewrite fadd_0; auto|]. rewrite <- fadd_assoc. apply gp_S; auto.
  Qed.
  Lemma seg_split : forall a l1 x l2 v s, seg a (l1 ++ x :: l2) v s -> exists v1 v2, seg a (x :: l2) v1 x /\ seg x l1 v2 s /\ v = f_add v1 v2.
  Proof.
    intros a l1 x l2. induction l1 as [|y l1 IH]; intros v s H; cbn in H.
    - inversion H; subst. eexists; eexists. split; [exact H|]. split; [constructor|]. rewrite fadd_0. reflexivity.
    - inversion H as [|vs v0 s0 l t H1 He]; subst. destruct (IH _ _ H1) as (v1 & v2 & I1 & I2 & ->). exists v1, (f_add v2 (wt s0 l s)). ands; auto; [constructor; auto|]. apply fadd_assoc.
  Qed.
  Lemma gp_as_seg : forall k v s, gp k v s -> exists a vs, a < n /\ seg a vs v s /\ length vs = k.
  Proof.
    intros k v s H. induction H as [s Hs|k v s l t H (a & vs & I1 & I2 & I3) He]; [exists s, []; ands; auto; constructor|].
    exists a, (t :: vs). ands; auto; [constructor; auto|cbn; lia].
  Qed.
  Lemma seg_end : forall a vs v s, seg a vs v s -> match vs with [] => s = a | x :: _ => s = x end.
  Proof. intros a vs v s H. destruct H; auto. Qed.

  (** A long path passes twice through some state. *)
  Lemma cycle : forall k v s, gp k v s -> N <= k -> exists a k1 v1 cs c vs u, gp k1 v1 a /\ cs <> [] /\ seg a cs c a /\ seg a vs u s /\ v = f_add (f_add v1 c) u /\ k = k1 + length cs + length vs.
  Proof.
    intros k v s H L. destruct (gp_as_seg k v s H) as (a & vs & Ha & Hs & Lk).
    destruct (dup_split (vs ++ [a]) N) as (x & l1 & l2 & l3 & El).
    { intros y Hy. apply in_app_iff in Hy. destruct Hy as [Hy|[<-|[]]]; [eapply seg_lt; eauto|lia]. }
    { rewrite app_length. cbn. lia. }
    destruct l3 as [|y l3 _] using rev_ind.
    - assert (El' : vs ++ [a] = (l1 ++ x :: l2) ++ [x]) by (rewrite El, <- app_assoc; reflexivity). apply app_inj_tail in El'. destruct El' as [-> ->].
      destruct (seg_split _ _ _ _ _ _ Hs) as (v1 & v2 & S1 & S2 & ->). exists x, 0, (Some 0%Z), (x :: l2), v1, l1, v2.
      ands; auto; [constructor; auto|discriminate|rewrite fadd_0l; auto|]. rewrite app_length in Lk. cbn in *. lia.
    - assert (El' : vs ++ [a] = (l1 ++ x :: l2 ++ x :: l3) ++ [y]) by (rewrite El, <- app_assoc; cbn; rewrite <- app_assoc; reflexivity). apply app_inj_tail in El'. destruct El' as [-> ->].
      destruct (seg_split _ _ _ _ _ _ Hs) as (v1 & v2 & S1 & S2 & ->). destruct (seg_split _ (x :: l2) _ _ _ _ S1) as (v3 & v4 & S3 & S4 & ->).
      exists x, (length (x :: l3)), v3, (x :: l2), v4, l1, v2. ands; auto; [|discriminate|].
      + assert (K := gp_seg _ _ _ _ _ _ (gp_0 y Ha) S3). rewrite fadd_0l, Nat.add_0_r in K. exact K.
      + rewrite !app_length in Lk. cbn [length] in *. rewrite app_length in Lk. cbn [length] in *. lia.
  Qed.
  Lemma short_path : forall k v s, gp k v s -> exists k' v', k' < N /\ gp k' v' s.
  Proof.
    intros k. induction k as [k IH] using lt_wf_ind. intros v s H. destruct (Nat.lt_ge_cases k N) as [L|L]; [eauto|].
    destruct (cycle k v s H L) as (a & k1 & v1 & cs & c & vs & u & H1 & H2 & H3 & H4 & H5 & H6). eapply (IH (length vs + k1)); [|eapply gp_seg; eauto].
    destruct cs; [congruence|cbn in H6; lia].
  Qed.
  Definition unbS (t : nat) : Prop := forall b, exists k x, gp k (Some x) t /\ (sg mx x < b)%Z.
  Lemma pump : forall a cs c, seg a cs (Some c) a -> forall j, exists vs, seg a vs (Some (Z.of_nat j * c)%Z) a.
  Proof.
    intros a cs c H j. induction j as [|j (vs & IH)]; [exists []; constructor|].
    assert (SA : forall vs1 v1 vs2 v2 s, seg a vs1 v1 a -> seg a vs2 v2 s -> exists vs3, seg a vs3 (f_add v1 v2) s).
    { intros vs1 v1 vs2 v2 s K1 K2. induction K2 as [|vs2 v2 s l t K (vs3 & I) He]; [exists vs1; rewrite fadd_0; auto|]. exists (t :: vs3). rewrite <- fadd_assoc. constructor; auto. }
    destruct (SA _ _ _ _ _ IH H) as [vs3 K]. exists vs3. replace (Z.of_nat (S j) * c)%Z with (Z.of_nat j * c + c)%Z by lia. exact K.
  Qed.
  Lemma walk : forall k x s, gp k (Some x) s -> (exists k' y, k' < N /\ gp k' (Some y) s /\ (sg mx y <= sg mx x)%Z) \/ unbS s.
  Proof.
    intros k. induction k as [k IH] using lt_wf_ind. intros x s H. destruct (Nat.lt_ge_cases k N) as [L|L]; [left; exists k, x; ands; auto; lia|].
    destruct (cycle k _ s H L) as (a & k1 & v1 & cs & c & vs & u & H1 & H2 & H3 & H4 & H5 & H6).
    symmetry in H5. destruct (fadd_Some _ _ _ H5) as (y & u' & Ey & -> & ->). destruct (fadd_Some _ _ _ Ey) as (v' & c' & -> & -> & ->).
    destruct (Z_lt_le_dec (sg mx c') 0) as [Lc|Lc].
    - right. intros b. destruct (pump _ _ _ H3 (Z.to_nat (sg mx (v' + u') - b + 1))) as [ws Hw].
      assert (K := gp_seg _ _ _ _ _ _ (gp_seg _ _ _ _ _ _ H1 Hw) H4). cbn [f_add] in K. eexists; eexists. split; [exact K|].
      rewrite !sg_add in *. set (m := Z.to_nat _). assert (Lm : (sg mx v' + sg mx u' - b + 1 <= Z.of_nat m)%Z) by (unfold m; lia).
      assert (Q : (sg mx (Z.of_nat m * c') <= - Z.of_nat m)%Z). { clear - Lc. unfold sg in *. induction m as [|m IHm]; [destruct mx; cbn; lia|]. rewrite Nat2Z.inj_succ. destruct mx; lia. }
      lia.
    - destruct (IH (length vs + k1)) with (x := (v' + u')%Z) (s := s) as [(k' & y & K1 & K2 & K3)|U].
      + destruct cs; [congruence|cbn in H6; lia].
      + apply (gp_seg _ _ _ _ _ _ H1 H4).
      + left. exists k', y. ands; auto. rewrite !sg_add in *. lia.
      + auto.
  Qed.

  (** A weight found for a state: that of a path, or bottom where the weights of paths are unbounded. *)
  Definition real (s : nat) (v : fwt) : Prop := (exists k u, gp k u s) /\ ((exists k, gp k v s) \/ (v = None /\ unbS s)).
  Lemma real_edge : forall s v l t, real s v -> E s l t -> real t (f_add v (wt s l t)).
  Proof.
    intros s v l t [(k & u & Hk) [(k' & H)|(-> & U)]] He; (split; [exists (S k); eexists; eapply gp_S; eauto|]); [left; exists (S k'); apply gp_S; auto|].
    cbn [f_add]. destruct (wt s l t) as [w|] eqn:Ew.
    - right. split; auto. intros b. destruct (U (b - sg mx w)%Z) as (k2 & x & K1 & K2). exists (S k2), (x + w)%Z. split; [|rewrite sg_add; lia].
      change (Some (x + w)%Z) with (f_add (Some x) (Some w)). rewrite <- Ew. apply gp_S; auto.
    - left. exists (S k). replace None with (f_add u (wt s l t)) by (rewrite Ew; destruct u; auto). apply gp_S; auto.
  Qed.
  Lemma gp_ipath : forall v f, (exists k, gp k v f) <-> exists p w, p < n /\ ipath E wt p w v f.
  Proof.
    assert (SN : forall q w v s l t, ipath E wt q w v s -> E s l t -> exists w', ipath E wt q w' (f_add v (wt s l t)) t).
    { intros q w v s l t H He. induction H as [q|q l0 q1 w v s H1 H2 IH].
      - eexists. rewrite fadd_0l. rewrite <- (fadd_0 (fa_weight A (mk_edge q l t))). apply (ip_cons _ wt q l t [] (Some 0%Z) t); auto. constructor.
      - destruct (IH He) as [w' I']. eexists. change (iplus ?a ?b) with (f_add a b). rewrite fadd_assoc. apply (ip_cons _ wt q l0 q1 w' _ t); eauto. }
    intros v f. split.
    - intros (k & H). induction H as [s Hs|k v s l t H (p & w & I1 & I2) He]; [exists s, []; split; auto; constructor|].
      destruct (SN _ _ _ _ _ _ I2 He) as [w' K]. eauto.
    - intros (p & w & Hp & H).
      assert (G : forall q w v f, ipath E wt q w v f -> exists vs, seg q vs v f).
      { clear. intros q w v f H. induction H as [q|q l q1 w v f H1 H2 (vs & IH)]; [exists []; constructor|]. change (iplus ?a ?b) with (f_add a b).
        clear H2. induction IH as [|vs v s l' t K (ws & I) He]; [exists [q1]; rewrite fadd_0; rewrite <- (fadd_0l (fa_weight A (mk_edge q l q1))); apply (seg_cons q [] _ q l q1); auto; constructor|].
        exists (t :: ws). rewrite <- fadd_assoc. constructor; auto. }
      destruct (G _ _ _ _ H) as [vs K]. exists (length vs + 0). assert (Q := gp_seg _ _ _ _ _ _ (gp_0 p Hp) K). rewrite fadd_0l in Q. exact Q.
  Qed.
End Paths.
