(** get_path and get_path_with_loop on the result of PAutomatonFixedPoint. *)
From Coq Require Import List Arith Lia Bool ZArith Permutation.
From Verif Require Import Base BaseFacts Spec SpecFacts PdaModel PdaProof AutModel AutProof PreStarModel PreStarProof PreStarLang
  PostStarModel SolverModel QueryModel QueryProof ProductModel ProductProof UtilModel UtilProof ShortSpec ShortModel PostShortProof PreShortModel PreShortProof TraceModel TraceProof TraceSolver
  FixSpec FixModel FixChain FixPre1 FixPre2 FixPath FixPath2 FixSolveModel FixSolveProof FixTraceModel FixTrace1 FixTrace3.
Import ListNotations.

(** The weight of a path given by its states and labels. *)
Fixpoint pathw (wt : nat -> option nat -> nat -> fwt) (qs : list nat) (ls : list (option nat)) : fwt :=
  match qs, ls with
  | q :: (q1 :: _) as qs', l :: ls' => f_add (wt q l q1) (pathw wt qs' ls')
  | _, _ => Some 0%Z
  end.

Section FixTrace4.
  Variable n : nat.
  Variable mx : bool.
  Variable A : faut.
  Notation E := (aut_edges (fa_aut A)).
  Notation wt := (fun x y z => fa_weight A (mk_edge x y z)).
  Hypothesis NE : forall q t, ~ E q None t.
  Variable zs : list sinfo.
  Variables r r1 : nat -> nat.
  Variable B : nat.
  Hypothesis Z : zi n mx A zs r r1 B.
  Variable sm : nat -> nat.
  Variable m : nat.

  (** A path from s to m. *)
  Definition pt (s : nat) (p : apth nat) (w : fwt) : Prop := exists qs ls, p = mk_apth (sm m) (combine ls (map sm qs)) /\ spath E qs ls /\ hd 0 qs = s /\ last qs 0 = m /\ pathw wt qs ls = w.
  Lemma pt_start : pt m (mk_apth (sm m) []) (Some 0%Z).
  Proof. exists [m], []. ands; auto. constructor. Qed.
  Lemma pt_step : forall s p w c l, pt s p w -> E c (Some l) s -> pt c (ap_emplace p (sm c) (Some l)) (f_add (wt c (Some l) s) w).
  Proof.
    intros s p w c l (qs & ls & H1 & H2 & H3 & H4 & H5) He. exists (c :: qs), (Some l :: ls). subst p. destruct qs as [|q qs]; [inversion H2|]. cbn in H3. subst q. ands; auto.
    - constructor; auto.
    - rewrite <- H5. reflexivity.
  Qed.

  (** Only the strict disjunct is left when the weights do not get better along the edges. *)
  Section Back.
    Hypothesis CLO : forall s i v l t j, nth_error zs s = Some i -> si_w i = Some v -> E s l t -> nth_error zs t = Some j -> exists u, si_w j = Some u /\ fle mx u (f_add v (wt s l t)).
    Lemma z_back_spec : forall fuel s i p vis v w, nth_error zs s = Some i -> si_w i = Some (Some v) -> NoDup (s :: vis) -> (forall x, In x (s :: vis) -> x < length zs) -> (forall x, In x vis -> r s < r x) ->
      length vis + fuel = length zs -> pt s p w -> exists p' q u, z_back zs sm fuel s p = Some p' /\ pt q p' u /\ q < n /\ u = f_add (Some v) w.
    Proof.
      induction fuel as [|f IH]; intros s i p vis v w Hi Hv ND HB HR HL HP; cbn [z_back]; rewrite Hi; cbn [obind]; destruct (si_pred i) as [[[c l]|]|] eqn:Ep.
      - exfalso. assert (K : length (s :: vis) <= length (seq 0 (length zs))) by (apply NoDup_incl_length; auto; intros x Hx; apply in_seq; specialize (HB x Hx); lia). rewrite seq_length in K. cbn [length] in K. lia.
      - destruct (zi_none _ _ _ _ _ _ _ Z s i Hi Ep) as [L W]. assert (v = 0%Z) by congruence. subst v. exists p, s, w. ands; auto. destruct w; auto.
      - exfalso. apply (zi_ini _ _ _ _ _ _ _ Z s i Hi) in Ep. congruence.
      - destruct (zi_pred _ _ _ _ _ _ _ Z s i c l Hi Ep) as (He & ci & vc & K1 & K2 & K3). destruct (K3 v Hv) as [K4 K5]. destruct l as [l|]; [|destruct (NE _ _ He)].
        destruct (CLO c ci vc (Some l) s i K1 K2 He Hi) as (u & U1 & U2). assert (u = Some v) by congruence. subst u. apply fle_spec in U2, K4.
        destruct vc as [xc|]; [|cbn in U2; tauto]. destruct (wt c (Some l) s) as [xw|] eqn:Ew; [|cbn in U2; tauto]. cbn [f_add] in U2, K4.
        assert (EQ : (xc + xw)%Z = v) by (unfold sg in U2, K4; destruct mx; lia).
        assert (RL : r c < r s). { destruct K5 as [K5|K5]; auto. apply flt_spec in K5. cbn in K5. rewrite EQ in K5. lia. }
        destruct (IH c ci (ap_emplace p (sm c) (Some l)) (s :: vis) xc (f_add (wt c (Some l) s) w)) as (p' & q & u & I1 & I2 & I3 & I4); auto.
        + constructor; auto. intros [Hx|Hx]; [subst; lia|]. specialize (HR c Hx). lia.
        + intros x [<-|Hx]; auto. eapply nth_error_lt; eauto.
        + intros x [<-|Hx]; auto. specialize (HR x Hx). lia.
        + cbn [length]. lia.
        + apply (pt_step s); auto.
        + exists p', q, u. ands; auto. subst u. rewrite Ew. destruct w as [w|]; cbn; auto. f_equal. lia.
      - destruct (zi_none _ _ _ _ _ _ _ Z s i Hi Ep) as [L W]. assert (v = 0%Z) by congruence. subst v. exists p, s, w. ands; auto. destruct w; auto.
      - exfalso. apply (zi_ini _ _ _ _ _ _ _ Z s i Hi) in Ep. congruence.
    Qed.
    Lemma z_get_path_spec : forall i v, nth_error zs m = Some i -> si_w i = Some (Some v) -> exists p q, z_get_path zs sm m = Some p /\ pt q p (Some v) /\ q < n.
    Proof.
      intros i v Hi Hv. destruct (z_back_spec (length zs) m i (mk_apth (sm m) []) [] v (Some 0%Z) Hi Hv) as (p & q & u & H1 & H2 & H3 & H4); auto using pt_start.
      - constructor; [intros []|constructor]. - intros x [<-|[]]. eapply nth_error_lt; eauto. - intros x [].
      - exists p, q. ands; auto. subst u. cbn in H2. rewrite Z.add_0_r in H2. auto.
    Qed.
  End Back.

  (** The recorded predecessor. *)
  Definition psucc (s c : nat) : Prop := exists i l, nth_error zs s = Some i /\ si_pred i = Some (Some (c, Some l)).
  Inductive walk : nat -> nat -> nat -> Prop :=
  | wk_nil : forall s, walk 0 s s
  | wk_cons : forall k s c t, psucc s c -> walk k c t -> walk (S k) s t.
  Lemma walk_snoc : forall k s c t, walk k s c -> psucc c t -> walk (S k) s t.
  Proof. intros k s c t H. induction H; intros; econstructor; eauto. constructor. Qed.

  Definition somept (s : nat) (p : apth nat) : Prop := exists w, pt s p w.
  Lemma t_next_spec : forall s p, reached zs s -> somept s p ->
    (t_next zs sm false s p = Some None /\ s < n) \/ exists c p', t_next zs sm false s p = Some (Some (c, p')) /\ psucc s c /\ reached zs c /\ somept c p'.
  Proof.
    intros s p (i & Hi & Hw) [w HP]. unfold t_next. rewrite Hi. cbn [obind]. destruct (si_pred i) as [[[c l]|]|] eqn:Ep.
    - destruct (zi_pred _ _ _ _ _ _ _ Z s i c l Hi Ep) as (He & ci & vc & K1 & K2 & _). destruct l as [l|]; [|destruct (NE _ _ He)]. right. exists c, (ap_emplace p (sm c) (Some l)). ands; auto.
      + exists i, l. auto. + exists ci. split; auto. congruence. + eexists. apply (pt_step s p w); eauto.
    - left. split; auto. eapply zi_none; eauto.
    - exfalso. apply Hw. apply (zi_ini _ _ _ _ _ _ _ Z s i Hi). auto.
  Qed.
  Lemma t_next_first : forall s p, reached zs s -> somept s p ->
    (t_next zs sm true s p = Some None /\ s < n) \/ exists c p', t_next zs sm true s p = Some (Some (c, p')) /\ r1 c < r1 s /\ reached zs c /\ somept c p'.
  Proof.
    intros s p (i & Hi & Hw) [w HP]. unfold t_next. rewrite Hi. cbn [obind]. destruct (si_first i) as [[[c l]|]|] eqn:Ep.
    - destruct (zi_first _ _ _ _ _ _ _ Z s i c l Hi Ep) as (He & K1 & K2). destruct l as [l|]; [|destruct (NE _ _ He)]. right. exists c, (ap_emplace p (sm c) (Some l)). ands; auto.
      eexists. apply (pt_step s p w); eauto.
    - left. split; auto. eapply zi_none1; eauto.
    - exfalso. apply Hw. apply (zi_ini1 _ _ _ _ _ _ _ Z s i Hi). auto.
  Qed.
  Definition good (p : apth nat) : Prop := exists q, q < n /\ somept q p.
  Lemma t_end_spec : forall fuel s p, reached zs s -> somept s p -> (t_end zs sm fuel s p = Some None /\ fuel <= r1 s) \/ exists p', t_end zs sm fuel s p = done p' /\ good p'.
  Proof.
    induction fuel as [|f IH]; intros s p H1 H2; [left; split; auto; lia|]. cbn [t_end]. destruct (t_next_first s p H1 H2) as [[-> L]|(c & p' & -> & L & R & S)]; cbn [obind].
    - right. exists p. split; auto. exists s. auto.
    - destruct (IH c p' R S) as [[-> K]|H]; auto. left. split; auto. lia.
  Qed.
  Lemma t_loop_spec : forall fuel e k s p, walk (S k) s e -> reached zs s -> somept s p ->
    (t_loop zs sm fuel e s p = Some None /\ fuel <= k) \/ exists p', t_loop zs sm fuel e s p = done p' /\ reached zs e /\ somept e p'.
  Proof.
    induction fuel as [|f IH]; intros e k s p HW H1 H2; [left; split; auto; lia|]. cbn [t_loop]. inversion HW as [|k' s' c t (i & l & Hi & Hp) Hk]; subst.
    destruct (t_next_spec s p H1 H2) as [[HN L]|(c' & p' & -> & (i' & l' & Hi' & Hp') & R & S)]; cbn [obind].
    - exfalso. unfold t_next in HN. rewrite Hi in HN. cbn [obind] in HN. rewrite Hp in HN. discriminate.
    - assert (c' = c) by congruence. subst c'. destruct (Nat.eqb_spec c e) as [Q|N]; [subst c; right; exists p'; auto|].
      destruct k as [|k]; [inversion Hk; congruence|]. destruct (IH e k c p' Hk R S) as [[-> K]|H]; auto. left. split; auto. lia.
  Qed.
  Lemma t_find_spec : forall fuel seen s p, reached zs s -> somept s p -> NoDup seen -> (forall x, In x seen -> x < length zs /\ exists k, walk k x s /\ k <= length zs) -> In s seen ->
    (forall x, In x seen -> exists k, walk k x s /\ k < length seen) ->
    (t_find zs sm fuel seen s p = Some None /\ fuel + length seen <= length zs) \/
    (exists p', t_find zs sm fuel seen s p = done (None, p') /\ good p') \/
    (exists e p' k, t_find zs sm fuel seen s p = done (Some e, p') /\ reached zs e /\ somept e p' /\ walk (S k) e e /\ k < length zs).
  Proof.
    induction fuel as [|f IH]; intros seen s p H1 H2 ND HS Hin HW.
    - left. split; auto. cbn. rewrite <- (seq_length (length zs) 0). apply NoDup_incl_length; auto. intros x Hx. apply in_seq. destruct (HS x Hx). lia.
    - assert (LS : length seen <= length zs). { rewrite <- (seq_length (length zs) 0) at 1. apply NoDup_incl_length; auto. intros x Hx. apply in_seq. destruct (HS x Hx). lia. }
      cbn [t_find]. destruct (t_next_spec s p H1 H2) as [[-> L]|(c & p' & -> & P1 & R & S)]; cbn [obind].
      + right; left. exists p. split; auto. exists s. auto.
      + destruct (memb c seen) eqn:M.
        * apply memb_In in M. right; right. destruct (HW c M) as (k & K1 & K2). exists c, p', k. ands; auto; [|lia]. eapply walk_snoc; eauto.
        * assert (Nc : ~ In c seen) by (rewrite <- memb_In; congruence).
          destruct (IH (c :: seen) c p' R S) as [[E1 E2]|[H|H]]; auto.
          -- constructor; auto.
          -- intros x [<-|Hx].
             ++ destruct R as (i & Hi & _). split; [eapply nth_error_lt; eauto|]. exists 0. split; [constructor|lia].
             ++ split; [apply HS; auto|]. destruct (HW x Hx) as (k & K1 & K2). exists (Datatypes.S k). split; [eapply walk_snoc; eauto|lia].
          -- left; auto.
          -- intros x [<-|Hx]; [exists 0; split; [constructor|cbn; lia]|]. destruct (HW x Hx) as (k & K1 & K2). exists (Datatypes.S k). split; [eapply walk_snoc; eauto|cbn; lia].
          -- left. split; auto. cbn [length] in E2. lia.
  Qed.
  Lemma z_get_path_with_loop_spec : forall fuel, reached zs m ->
    (z_get_path_with_loop zs sm fuel m = Some None /\ fuel <= length zs + B) \/ exists p, z_get_path_with_loop zs sm fuel m = done p /\ good p.
  Proof.
    intros fuel HR. unfold z_get_path_with_loop. assert (Lm : m < length zs) by (destruct HR as (i & Hi & _); eapply nth_error_lt; eauto).
    destruct (t_find_spec fuel [m] m (mk_apth (sm m) []) HR) as [[-> L]|[(p & -> & G)|(e & p & k & -> & R & S & W & K)]].
    - eexists. apply pt_start.
    - constructor; [intros []|constructor].
    - intros x [<-|[]]. split; auto. exists 0. split; [constructor|lia].
    - left; auto.
    - intros x [<-|[]]. exists 0. split; [constructor|cbn; lia].
    - left. split; auto. lia.
    - right. exists p. auto.
    - cbv beta iota delta [done]. destruct (t_loop_spec fuel e k e p W R S) as [[-> L]|(p' & -> & R' & S')]; [left; split; auto; lia|]. cbv beta iota delta [done].
      destruct (t_end_spec fuel e p' R' S') as [[-> L]|H]; auto. left. split; auto. assert (Q := proj2 (zi_B _ _ _ _ _ _ _ Z e)). lia.
  Qed.
End FixTrace4.
