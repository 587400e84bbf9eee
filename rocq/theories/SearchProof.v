(** Proofs about the depth-first search of reconstruct_trace (HeaderModel). *)
From Coq Require Import List Arith Lia Bool.
From Verif Require Import Base BaseFacts PdaModel TrieModel RefineModel MappingProof RefineProof PairProof HeaderModel.
Import ListNotations.

Lemma ofold_app' : forall A B (f : A -> B -> option A) l l' a, ofold f (l ++ l') a = obind (ofold f l a) (ofold f l').
Proof. intros A B f l l'. induction l as [|x l IH]; intros a; cbn; auto. destruct (f a x); cbn; auto. Qed.
Section SearchP.
  Variables (conf : Type) (n : nat) (next : nat -> conf -> list conf) (fin : conf -> option (header + refinement)).
  (** *** Specification *)
  (** The configurations after d rules, for d >= 1; [init] are those after the first rule. *)
  Fixpoint level (init : list conf) (d : nat) : list conf :=
    match d with 0 => [] | S d' => match d' with 0 => init | S _ => flat_map (next d') (level init d') end end.
  (** A sequence of configurations, one per rule. *)
  Definition chain (init t : list conf) : Prop :=
    (forall c, nth_error t 0 = Some c -> In c init) /\ (forall i c c', nth_error t i = Some c -> nth_error t (S i) = Some c' -> In c' (next (S i) c)).
  Definition refs (l : list conf) : list refinement := flat_map (fun c => match fin c with Some (inr r) => [r] | _ => [] end) l.

  (** *** The order of the visits *)
  (** m bounds the number of further rules. *)
  Fixpoint pre (m d : nat) (c : conf) : list (nat * conf) :=
    match m with 0 => [] | S m' => (S d, c) :: (if S d <? n then flat_map (pre m' (S d)) (next (S d) c) else []) end.
  Definition track (st : nat * list conf) (v : nat * conf) : nat * list conf :=
    let '(mx, deep) := if fst st <? fst v then (fst v, []) else st in if fst v =? mx then (mx, deep ++ [snd v]) else (mx, deep).
  Definition atd (d : nat) (P : list (nat * conf)) : list conf := flat_map (fun v => if fst v =? d then [snd v] else []) P.
  Definition leaves (P : list (nat * conf)) : list conf := atd n P.
  Lemma atd_app : forall d P Q, atd d (P ++ Q) = atd d P ++ atd d Q.
  Proof. intros. apply flat_map_app. Qed.

  Hypothesis Hfin : forall c, fin c <> None.
  Hypothesis Href : forall c r, fin c = Some (inr r) -> ref_ok r /\ length (rf_parts r) = 2.
  Definition reaches (s s' : search conf) : Prop := exists k, forall fuel, search_loop n next fin (k + fuel) s = search_loop n next fin fuel s'.
  Lemma reaches_refl : forall s, reaches s s.
  Proof. intros s. exists 0. auto. Qed.
  Lemma reaches_trans : forall a b c, reaches a b -> reaches b c -> reaches a c.
  Proof. intros a b c [k H] [k' H']. exists (k + k'). intros f. rewrite <- Nat.add_assoc, H, H'. auto. Qed.
  Lemma reaches_step : forall s s', se_final s = None -> se_stack s <> [] -> search_step n next fin s = Some s' -> reaches s s'.
  Proof. intros s s' F N E. exists 1. intros f. cbn. rewrite F. destruct (se_stack s); [congruence|]. rewrite E. auto. Qed.
  Definition mk (stack : list (list conf * nat)) (st : nat * list conf) (hr : list refinement) : search conf := mk_search stack (fst st) (snd st) hr None.
  Definition ofold_run (rs : list refinement) (h h' : list refinement) : Prop := ofold header_combine rs h = Some h'.
  (** The part of a stack above [rest] after success: one level per rule, whose heads form a chain. *)
  Inductive path_stack : nat -> list conf -> list (list conf * nat) -> conf -> list conf -> Prop :=
  | ps_leaf : forall d l c cs, In c l -> S d = n -> path_stack d l [(c :: cs, d)] c [c]
  | ps_node : forall d l c cs st c' t, In c l -> S d < n -> path_stack (S d) (next (S d) c) st c' t -> path_stack d l (st ++ [(c :: cs, d)]) c' (c :: t).

  (** A whole range. *)
  Lemma range_spec : forall m d l rest st rs hr, n <= d + m -> d < n -> header_run rs = Some hr -> (forall r, In r rs -> ref_ok r /\ length (rf_parts r) = 2) ->
    (exists hr', header_run (rs ++ refs (leaves (flat_map (pre m d) l))) = Some hr' /\
       (forall c, In c (leaves (flat_map (pre m d) l)) -> exists r, fin c = Some (inr r)) /\
       reaches (mk ((l, d) :: rest) st hr) (mk (([], d) :: rest) (fold_left track (flat_map (pre m d) l) st) hr')) \/
    (exists s' stk c t h, reaches (mk ((l, d) :: rest) st hr) s' /\ se_final s' = Some h /\ se_stack s' = stk ++ rest /\ path_stack d l stk c t /\ fin c = Some (inl h) /\ n <= se_max s').
  Proof.
    induction m as [|m IH]; intros d l rest st rs hr Hm Hd Er Hr; [lia|].
    revert st rs hr Er Hr. induction l as [|c l IHl]; intros st rs hr Er Hr.
    - left. exists hr. cbn. rewrite app_nil_r. split; auto. split; [intros c []|]. apply reaches_refl.
    - unfold leaves in *. change (flat_map (pre (S m) d) (c :: l)) with ((S d, c) :: (if S d <? n then flat_map (pre m (S d)) (next (S d) c) else []) ++ flat_map (pre (S m) d) l).
      assert (Ea: forall P, atd n ((S d, c) :: P) = (if S d =? n then [c] else []) ++ atd n P) by reflexivity. rewrite Ea, atd_app. clear Ea. remember (flat_map (pre (S m) d) l) as Q eqn:EQ. clear EQ.
      assert (Est: (let '(mx, deep) := if Nat.ltb (fst st) (S d) then (S d, []) else (fst st, snd st) in let deep := if Nat.eqb (S d) mx then deep ++ [c] else deep in (mx, deep)) = track st (S d, c)).
      { unfold track. cbn [fst snd]. destruct st as [mx deep]. cbn [fst snd]. destruct (mx <? S d); destruct (S d =? _); auto. }
      destruct (S d <? n) eqn:Ed.
      + apply Nat.ltb_lt in Ed. assert (S1: search_step n next fin (mk ((c :: l, d) :: rest) st hr) = Some (mk ((next (S d) c, S d) :: (c :: l, d) :: rest) (track st (S d, c)) hr)).
        { rewrite <- Est. unfold search_step, mk. cbn [se_stack se_max se_deep se_ref]. destruct (fst st <? S d); destruct (Nat.ltb_spec (S d) n); try lia; auto. }
        apply reaches_step in S1; [|auto|discriminate].
        destruct (IH (S d) (next (S d) c) ((c :: l, d) :: rest) (track st (S d, c)) rs hr) as [(hr1 & E1 & L1 & R1)|(s' & stk & c' & t & h & R1 & F1 & K1 & P1 & X1)]; [lia|auto|auto|auto| |].
        * assert (Hr1: forall r, In r (rs ++ refs (atd n (flat_map (pre m (S d)) (next (S d) c)))) -> ref_ok r /\ length (rf_parts r) = 2).
          { intros r H. apply in_app_or in H. destruct H as [H|H]; auto. unfold refs in H. apply in_flat_map in H. destruct H as (x & Hx & H). destruct (L1 x Hx) as [r' Er']. rewrite Er' in H. destruct H as [<-|[]]. eauto. }
          destruct (IHl (fold_left track (flat_map (pre m (S d)) (next (S d) c)) (track st (S d, c))) _ hr1 E1 Hr1) as [(hr2 & E2 & L2 & R2)|(s' & stk & c' & t & h & R2 & F2 & K2 & P2 & X2)].
          -- left. exists hr2. split; [|split].
             ++ destruct (Nat.eqb_spec (S d) n); [lia|]. cbn [app]. unfold refs in *. rewrite <- E2. f_equal. rewrite <- app_assoc. f_equal. apply flat_map_app.
             ++ intros x Hx. destruct (Nat.eqb_spec (S d) n); [lia|]. cbn [app] in Hx. apply in_app_or in Hx. destruct Hx; auto.
             ++ eapply reaches_trans; [exact S1|]. eapply reaches_trans; [exact R1|]. eapply reaches_trans; [|cbn [fold_left]; rewrite fold_left_app; exact R2].
                apply reaches_step; auto. discriminate.
          -- right. exists s', stk, c', t, h. split; [eapply reaches_trans; [exact S1|]; eapply reaches_trans; [exact R1|]; eapply reaches_trans; [|exact R2]; apply reaches_step; [auto|discriminate|auto]|].
             split; auto. split; auto. split; auto. inversion P2; subst; [apply ps_leaf|apply ps_node]; cbn; auto.
        * right. exists s', (stk ++ [(c :: l, d)]), c', (c :: t), h. split; [eapply reaches_trans; eauto|]. split; auto. split; [rewrite K1, <- app_assoc; auto|]. split; auto. apply ps_node; cbn; auto.
      + apply Nat.ltb_ge in Ed. assert (Dn: S d = n) by lia. change (atd n []) with (@nil conf). rewrite (proj2 (Nat.eqb_eq _ _) Dn). cbn [app].
        assert (Fc := Hfin c). destruct (fin c) as [[h|r]|] eqn:Ef; [| |congruence].
        * right. assert (S1: search_step n next fin (mk ((c :: l, d) :: rest) st hr) = Some (mk_search ((c :: l, d) :: rest) (fst (track st (S d, c))) (snd (track st (S d, c))) hr (Some h))).
          { rewrite <- Est. unfold search_step, mk. cbn [se_stack se_max se_deep se_ref]. rewrite Ef. cbn [obind]. destruct (fst st <? S d); destruct (Nat.ltb_spec (S d) n); try lia; auto. }
          apply reaches_step in S1; [|auto|discriminate]. eexists _, [(c :: l, d)], c, [c], h. split; [exact S1|]. split; auto. split; auto. split; [apply ps_leaf; cbn; auto|]. split; [auto|].
          cbn [se_max]. unfold track. cbn [fst snd]. destruct st as [mx deep]. cbn [fst snd]. destruct (Nat.ltb_spec mx (S d)); [rewrite Nat.eqb_refl; cbn; lia|]; destruct (Nat.eqb_spec (S d) mx); cbn; lia.
        * destruct (Href c r Ef) as [Or Lr]. destruct (header_run_spec (rs ++ [r])) as (hr1 & E1 & _).
          { intros r' H. apply in_app_or in H. destruct H as [H|[<-|[]]]; auto. }
          assert (C1: header_combine hr r = Some hr1). { unfold header_run in E1, Er. rewrite ofold_app', Er in E1. cbn in E1. destruct (header_combine hr r); [|discriminate]. cbn in E1. auto. }
          assert (S1: search_step n next fin (mk ((c :: l, d) :: rest) st hr) = Some (mk ((l, d) :: rest) (track st (S d, c)) hr1)).
          { rewrite <- Est. unfold search_step, mk. cbn [se_stack se_max se_deep se_ref]. rewrite Ef. cbn [obind]. rewrite C1. destruct (fst st <? S d); destruct (Nat.ltb_spec (S d) n); try lia; auto. }
          apply reaches_step in S1; [|auto|discriminate].
          assert (Hr1: forall r', In r' (rs ++ [r]) -> ref_ok r' /\ length (rf_parts r') = 2) by (intros r' H; apply in_app_or in H; destruct H as [H|[<-|[]]]; auto).
          destruct (IHl (track st (S d, c)) (rs ++ [r]) hr1 E1 Hr1) as [(hr2 & E2 & L2 & R2)|(s' & stk & c' & t & h & R2 & F2 & K2 & P2 & X2)].
          -- left. exists hr2. split; [|split].
             ++ rewrite <- E2. f_equal. rewrite <- app_assoc. f_equal. cbn [refs flat_map]. rewrite Ef. auto.
             ++ intros x [<-|Hx]; eauto.
             ++ cbn [fold_left]. eapply reaches_trans; eauto.
          -- right. exists s', stk, c', t, h. split; [eapply reaches_trans; eauto|]. split; auto. split; auto. split; auto. inversion P2; subst; [apply ps_leaf|apply ps_node]; cbn; auto.
  Qed.

  (** *** What the visits are *)
  Fixpoint lev (k d : nat) (l : list conf) : list conf := match k with 0 => l | S k' => if S d <? n then lev k' (S d) (flat_map (next (S d)) l) else [] end.
  Lemma pre_depth : forall m d c v, In v (pre m d c) -> d < fst v <= n \/ (fst v = S d).
  Proof.
    induction m as [|m IH]; intros d c v H; cbn in H; [destruct H|]. destruct H as [<-|H]; auto. destruct (Nat.ltb_spec (S d) n); [|destruct H]. apply in_flat_map in H. destruct H as (c' & _ & H). apply IH in H. lia.
  Qed.
  Lemma lev_nil : forall k d, lev k d [] = [].
  Proof. induction k as [|k IH]; intros d; cbn; auto. destruct (S d <? n); auto. Qed.
  Lemma lev_app : forall k d a b, lev k d (a ++ b) = lev k d a ++ lev k d b.
  Proof. induction k as [|k IH]; intros d a b; cbn; auto. destruct (S d <? n); auto. rewrite flat_map_app. auto. Qed.
  Lemma atd_pre : forall m d l k, k < m -> atd (S (d + k)) (flat_map (pre m d) l) = lev k d l.
  Proof.
    induction m as [|m IH]; intros d l k Hk; [lia|]. induction l as [|c l IHl]; [cbn; rewrite lev_nil; auto|]. change (c :: l) with ([c] ++ l). rewrite flat_map_app, atd_app, lev_app, IHl. f_equal.
    cbn [flat_map app]. rewrite app_nil_r. cbn [pre]. change (atd (S (d + k)) ((S d, c) :: ?x)) with ((if S d =? S (d + k) then [c] else []) ++ atd (S (d + k)) x).
    destruct k as [|k].
    - rewrite Nat.add_0_r, Nat.eqb_refl. cbn [lev app]. f_equal. unfold atd. destruct (S d <? n); auto. clear. 
      assert (G: forall v, In v (flat_map (pre m (S d)) (next (S d) c)) -> fst v <> S d). { intros v H. apply in_flat_map in H. destruct H as (c' & _ & H). apply pre_depth in H. lia. }
      induction (flat_map (pre m (S d)) (next (S d) c)) as [|v L IH]; auto. cbn. destruct (Nat.eqb_spec (fst v) (S d)) as [K|K]; [exfalso; apply (G v); cbn; auto|]. cbn. apply IH. intros; apply G; cbn; auto.
    - destruct (Nat.eqb_spec (S d) (S (d + S k))); [lia|]. cbn [lev app]. destruct (S d <? n) eqn:Ed; auto. replace (S (d + S k)) with (S (S d + k)) by lia. rewrite IH by lia. cbn [flat_map]. rewrite app_nil_r. auto.
  Qed.
  Lemma flat_map_nil : forall A B (f : A -> list B), flat_map f [] = []. Proof. auto. Qed.
  Lemma lev_level : forall init k, S k <= n -> lev k 0 init = level init (S k).
  Proof.
    intros init. assert (G: forall k d l, S (d + k) < n -> lev (S k) d l = flat_map (next (S (d + k))) (lev k d l)).
    { induction k as [|k IH]; intros d l H.
      - cbn. destruct (Nat.ltb_spec (S d) n); [|lia]. rewrite Nat.add_0_r. auto.
      - change (lev (S (S k)) d l) with (if S d <? n then lev (S k) (S d) (flat_map (next (S d)) l) else []). rewrite IH by lia. cbn [lev]. destruct (Nat.ltb_spec (S d) n); [|lia]. replace (S d + k) with (d + S k) by lia. auto. }
    induction k as [|k IH]; intros H; auto. rewrite G by lia. rewrite IH by lia. auto.
  Qed.
  Lemma level_nil : forall init d e, level init d = [] -> 0 < d -> d <= e -> level init e = [].
  Proof. intros init d e H H0 L. induction L as [|e L IH]; auto. destruct e as [|e]; [lia|]. change (level init (S (S e))) with (flat_map (next (S e)) (level init (S e))). rewrite IH. auto. Qed.
  Lemma atd_level : forall init d, 0 < d <= n -> atd d (flat_map (pre n 0) init) = level init d.
  Proof. intros init [|d] H; [lia|]. pose proof (atd_pre n 0 init d) as E. cbn [Nat.add] in E. rewrite E by lia. apply lev_level. lia. Qed.
  Lemma track_spec : forall P mx deep, let r := fold_left track P (mx, deep) in
    mx <= fst r /\ (forall v, In v P -> fst v <= fst r) /\ snd r = (if mx =? fst r then deep else []) ++ atd (fst r) P /\ (fst r = mx \/ exists v, In v P /\ fst v = fst r).
  Proof.
    induction P as [|[e c] P IH]; intros mx deep r; unfold r; cbn [fold_left].
    - cbn. rewrite Nat.eqb_refl, app_nil_r. split; [lia|]. split; [intros v []|]. auto.
    - clear r. remember (track (mx, deep) (e, c)) as st0 eqn:E0. unfold track in E0. cbn [fst snd] in E0. assert (A: forall d, atd d ((e, c) :: P) = (if e =? d then [c] else []) ++ atd d P) by reflexivity. rewrite A. destruct (Nat.ltb_spec mx e).
      + rewrite Nat.eqb_refl in E0. cbn [app] in E0. subst st0. specialize (IH e [c]). cbv zeta in IH. destruct IH as (H1 & H2 & H3 & H4). set (r := fold_left track P (e, [c])) in *.
        split; [lia|]. split; [intros v [<-|Hv]; auto|]. split.
        * rewrite H3. destruct (Nat.eqb_spec mx (fst r)); [lia|]. destruct (e =? fst r); auto.
        * right. destruct H4 as [H4|(v & Hv & H4)]; [exists (e, c)|exists v]; cbn; auto.
      + destruct (Nat.eqb_spec e mx) as [->|Ne].
        * subst st0. specialize (IH mx (deep ++ [c])). cbv zeta in IH. destruct IH as (H1 & H2 & H3 & H4). set (r := fold_left track P (mx, deep ++ [c])) in *.
          split; [lia|]. split; [intros v [<-|Hv]; auto|]. split.
          -- rewrite H3. destruct (mx =? fst r); rewrite <- ?app_assoc; auto.
          -- destruct H4 as [H4|(v & Hv & H4)]; auto. right. exists v. cbn. auto.
        * subst st0. specialize (IH mx deep). cbv zeta in IH. destruct IH as (H1 & H2 & H3 & H4). set (r := fold_left track P (mx, deep)) in *.
          split; [lia|]. split; [intros v [<-|Hv]; cbn; auto; lia|]. split.
          -- rewrite H3. destruct (Nat.eqb_spec e (fst r)); [lia|]. auto.
          -- destruct H4 as [H4|(v & Hv & H4)]; auto. right. exists v. cbn. auto.
  Qed.
  Lemma path_stack_spec : forall d l st c t, path_stack d l st c t -> d < n /\ length t = n - d /\ omap (fun e => hd_error (fst e)) (rev st) = Some t /\ last t c = c /\ t <> [] /\
    (forall x, nth_error t 0 = Some x -> In x l) /\ (forall i x x', nth_error t i = Some x -> nth_error t (S i) = Some x' -> In x' (next (S (d + i)) x)).
  Proof.
    intros d l st c t H. induction H as [d l c cs Hc Hd|d l c cs st c' t Hc Hd Hp IH].
    - split; [lia|]. split; [cbn; lia|]. split; [auto|]. split; [auto|]. split; [discriminate|]. split; [intros x E; injection E as <-; auto|]. intros [|[|i]] x x' E E'; discriminate.
    - destruct IH as (H1 & H2 & H3 & H4 & H5 & H6 & H7). split; [lia|]. split; [cbn; lia|]. split; [rewrite rev_app_distr; cbn; rewrite H3; auto|].
      split; [cbn; destruct t; [congruence|auto]|]. split; [discriminate|]. split; [intros x E; injection E as <-; auto|].
      intros [|i] x x' E E'; cbn in E, E'.
      + injection E as <-. rewrite Nat.add_0_r. apply H6. destruct t; auto.
      + replace (d + S i) with (S d + i) by lia. eapply H7; eauto.
  Qed.

  (** *** The whole search *)
  Theorem search_spec : forall init fin0, 0 < n -> (forall c h, fin c = Some (inl h) -> h_wild h = 0) ->
    exists k o, (forall fuel, reconstruct n next fin (k + fuel) init fin0 = Some (Some o)) /\
      match o with
      | OInitial => init = []
      | ORefine d deep => 0 < d < n /\ deep = level init d /\ deep <> [] /\ (forall c, In c deep -> next d c = [])
      | OTrace t stack => length t = n /\ chain init t /\ exists c h, nth_error t (n - 1) = Some c /\ fin c = Some (inl h) /\ h_conc h = stack /\ h_wild h = 0
      | OHeader hr => level init n <> [] /\ header_run (refs (level init n)) = Some hr /\ (forall c, In c (level init n) -> exists r, fin c = Some (inr r))
      end.
  Proof.
    intros init fin0 Hn Hw. destruct (range_spec n 0 init [] (0, []) [] []) as [(hr & E & L & k & Rk)|(s' & stk & c & t & h & [k Rk] & F & Ks & P & Ff & Mx)]; auto; [intros r []| |].
    - set (V := flat_map (pre n 0) init) in *. destruct (track_spec V 0 []) as (_ & T2 & T3 & T4). set (st := fold_left track V (0, [])) in *.
      assert (Lm: fst st <= n). { destruct T4 as [->|(v & Hv & <-)]; [lia|]. unfold V in Hv. apply in_flat_map in Hv. destruct Hv as (c & _ & Hv). apply pre_depth in Hv. lia. }
      assert (Ed: fst st <> 0 -> snd st = level init (fst st)). { intros K. rewrite T3. destruct (Nat.eqb_spec 0 (fst st)); [lia|]. cbn [app]. apply atd_level. lia. }
      assert (Ne: fst st <> 0 -> level init (fst st) <> []).
      { intros K. destruct T4 as [T4|(v & Hv & T4)]; [lia|]. rewrite <- atd_level by lia. fold V. intros Z. assert (I: In (snd v) (atd (fst st) V)). { unfold atd. apply in_flat_map. exists v. split; auto. rewrite T4, Nat.eqb_refl. cbn; auto. } rewrite Z in I. destruct I. }
      assert (Af: forall d, fst st < d <= n -> level init d = []).
      { intros d Hd. rewrite <- atd_level by lia. fold V. unfold atd. assert (G: forall v, In v V -> fst v <> d) by (intros v Hv; apply T2 in Hv; lia). clear -G. induction V as [|v V IH]; auto. cbn. destruct (Nat.eqb_spec (fst v) d) as [K|K]; [exfalso; apply (G v); cbn; auto|]. apply IH. intros; apply G; cbn; auto. }
      assert (Run: exists o, outcome_of n (mk [] st hr) = Some o /\
        match o with
        | OInitial => init = []
        | ORefine d deep => 0 < d < n /\ deep = level init d /\ deep <> [] /\ (forall c, In c deep -> next d c = [])
        | OTrace t stack => length t = n /\ chain init t /\ exists c h, nth_error t (n - 1) = Some c /\ fin c = Some (inl h) /\ h_conc h = stack /\ h_wild h = 0
        | OHeader hr => level init n <> [] /\ header_run (refs (level init n)) = Some hr /\ (forall c, In c (level init n) -> exists r, fin c = Some (inr r))
        end).
      { unfold outcome_of, mk. cbn [se_max se_deep se_ref se_final]. destruct (Nat.ltb_spec (fst st) n) as [Lt|Ge].
        - destruct (Nat.eqb_spec (fst st) 0) as [Z|Z].
          + eexists. split; [eauto|]. cbn. specialize (Af 1). cbn in Af. apply Af. lia.
          + eexists. split; [eauto|]. cbn. split; [lia|]. split; [auto|]. split; [rewrite Ed; auto|]. intros c Hc. rewrite Ed in Hc by auto.
            assert (Z': level init (S (fst st)) = []) by (apply Af; lia). destruct (fst st) as [|f] eqn:Ef; [lia|]. change (level init (S (S f))) with (flat_map (next (S f)) (level init (S f))) in Z'.
            destruct (next (S f) c) as [|y ys] eqn:En; auto. exfalso. assert (I: In y (flat_map (next (S f)) (level init (S f)))) by (apply in_flat_map; exists c; rewrite En; cbn; auto). rewrite Z' in I. destruct I.
        - assert (Fn: fst st = n) by lia. unfold leaves in *. assert (EV: atd n V = level init n) by (apply atd_level; lia). rewrite EV in E, L. cbn [app] in E. rewrite Fn in Ne.
          assert (Nh: hr <> []). { specialize (Ne ltac:(lia)). destruct (level init n) as [|c l] eqn:El; [congruence|]. destruct (L c (or_introl eq_refl)) as [r Ec]. intros ->.
            destruct (header_run_spec (refs (c :: l))) as (h & Eh & B). { intros r' H. unfold refs in H. apply in_flat_map in H. destruct H as (x & Hx & H). destruct (L x Hx) as [r'' Er'']. rewrite Er'' in H. destruct H as [<-|[]]. eauto. }
            rewrite E in Eh. injection Eh as <-. destruct (Href c r Ec) as [Or Lr]. destruct (rf_parts r) as [|p [|q ps]] eqn:Ep; try discriminate. destruct Or as (O1 & _). rewrite Ep in O1.
            destruct (O1 p) as [_ Np]; [cbn; auto|]. destruct (O1 q) as [_ Nq]; [cbn; auto|]. destruct p as [|x p]; [congruence|]. destruct q as [|y q]; [congruence|].
            destruct (hb_sep _ _ B r x y) as (t & [] & _).
            - unfold refs. apply in_flat_map. exists c. split; [cbn; auto|]. rewrite Ec. cbn; auto.
            - exists 0, 1. rewrite Ep. split; [lia|]. split; eexists; (split; [reflexivity|cbn; auto]). }
          destruct hr as [|r hr]; [congruence|]. cbn [is_nil]. eexists. split; [eauto|]. cbn. split; [apply Ne; lia|]. split; auto. }
      destruct Run as (o & Eo & Ho). exists (k + 1), o. split; auto. intros fuel. unfold reconstruct. destruct n as [|n'] eqn:En; [lia|]. rewrite <- En in *. cbn [obind].
      change (mk_search [(init, 0)] 0 [] [] None) with (mk [(init, 0)] (0, []) []). replace (k + 1 + fuel) with (k + S fuel) by lia. rewrite Rk. cbn [search_loop se_final se_stack mk search_step obind].
      assert (Z: forall f, search_loop n next fin f (mk [] st hr) = Some (Some (mk [] st hr))) by (intros [|f]; reflexivity). unfold mk in Z, Eo. cbn [fst snd se_max se_deep se_ref] in *. rewrite Z. cbn [obind]. rewrite Eo. auto.
    - rewrite app_nil_r in Ks. destruct (path_stack_spec _ _ _ _ _ P) as (_ & Lt & Om & La & Nt & C1 & C2). exists k, (OTrace t (h_conc h)). split.
      + intros fuel. unfold reconstruct. destruct n as [|n'] eqn:En; [lia|]. rewrite <- En in *. cbn [obind]. change (mk_search [(init, 0)] 0 [] [] None) with (mk [(init, 0)] (0, []) []). rewrite Rk.
        assert (Z: search_loop n next fin fuel s' = Some (Some s')) by (destruct fuel; cbn; rewrite F; auto). rewrite Z. cbn [obind]. unfold outcome_of. destruct (Nat.ltb_spec (se_max s') n); [lia|].
        rewrite F, (Hw c h Ff). cbn [Nat.eqb]. rewrite Ks, Om. auto.
      + split; [lia|]. split; [split; [auto|intros i x x' E E'; specialize (C2 i x x' E E'); auto]|]. exists c, h. split; [|split; [auto|split; [auto|apply (Hw c h Ff)]]].
        destruct t as [|x t] using rev_ind; [congruence|]. rewrite last_last in La. subst x. rewrite app_length in Lt. cbn in Lt. rewrite nth_error_app2 by lia. replace (n - 1 - length t) with 0 by lia. auto.
  Qed.
End SearchP.
