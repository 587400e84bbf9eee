(** Proofs about the writing of pushdown automata as JSON documents (JsonModel, to_json). *)
From Coq Require Import List Arith Lia Bool ZArith String Sorted OrderedTypeEx.
From Verif Require Import Base BaseFacts PdaModel PdaProof TrieModel RefineModel MappingProof TypedModel TypedProof JsonModel JsonSpec JsonProof.
Import ListNotations.
Open Scope string_scope.

(** * Sorted objects *)
Definition klt (a b : string * json) : Prop := String.compare (fst a) (fst b) = Lt.
Notation sorted := (StronglySorted klt).
Lemma slt_trans : forall a b c, String.compare a b = Lt -> String.compare b c = Lt -> String.compare a c = Lt.
Proof. intros a b c H1 H2. apply String_as_OT.cmp_lt in H1, H2. apply String_as_OT.cmp_lt. eapply String_as_OT.lt_trans; eauto. Qed.
Lemma slt_irrefl : forall a, String.compare a a <> Lt.
Proof. intros a. assert (E : String.compare a a = Eq) by (apply String_as_OT.cmp_eq; reflexivity). rewrite E. discriminate. Qed.
Lemma obj_set_In : forall m k v k' v', sorted m -> (In (k', v') (obj_set m k v) <-> (k' = k /\ v' = v) \/ (k' <> k /\ In (k', v') m)).
Proof.
  induction m as [|[k0 v0] m IH]; intros k v k' v' S; cbn [obj_set].
  - cbn. split; [intros [H|[]]; injection H as -> ->; auto|intros [[-> ->]|[_ []]]; auto].
  - inversion_clear S as [|? ? S1 S2]. rewrite Forall_forall in S2.
    destruct (String.compare k k0) eqn:E.
    + apply String.compare_eq_iff in E. subst k0. cbn. split.
      * intros [H|H]; [injection H as -> ->; auto|]. right. split; auto. intros ->. apply S2 in H. eapply slt_irrefl; exact H.
      * intros [[-> ->]|[H [H1|H1]]]; auto. injection H1 as -> ->. congruence.
    + cbn. split.
      * intros [H|[H|H]]; [injection H as -> ->; auto| |]; right.
        -- injection H as -> ->. split; auto. intros ->. eapply slt_irrefl; exact E.
        -- split; auto. intros ->. apply S2 in H. unfold klt in H. cbn in H. eapply slt_irrefl. eapply slt_trans; eauto.
      * intros [[-> ->]|[H [H1|H1]]]; auto.
    + cbn. rewrite IH by auto. split.
      * intros [H|[H|[H1 H2]]]; auto. injection H as -> ->. right. split; auto. intros ->. assert (E' : String.compare k k = Eq) by (apply String_as_OT.cmp_eq; reflexivity). congruence.
      * intros [H|[H1 [H2|H2]]]; auto.
Qed.
Lemma obj_set_sorted : forall m k v, sorted m -> sorted (obj_set m k v).
Proof.
  induction m as [|[k0 v0] m IH]; intros k v S; cbn [obj_set]; [repeat constructor|]. inversion S as [|? ? S1 S2]; subst. destruct (String.compare k k0) eqn:E.
  - apply String.compare_eq_iff in E. subst k0. constructor; auto.
  - constructor; auto. constructor; [exact E|]. rewrite Forall_forall in *. intros x Hx. unfold klt in *. cbn. eapply slt_trans; [exact E|]. apply (S2 x Hx).
  - constructor; auto. rewrite Forall_forall in *. intros [k' v'] Hx. apply obj_set_In in Hx; auto. destruct Hx as [[-> ->]|[_ Hx]]; [|apply S2; auto].
    unfold klt. cbn. rewrite String.compare_antisym, E. reflexivity.
Qed.
Lemma obj_get_In : forall m k, sorted m -> match obj_get m k with Some v => In (k, v) m | None => forall v, ~ In (k, v) m end.
Proof.
  induction m as [|[k0 v0] m IH]; intros k S; cbn [obj_get]; [intros v []|]. inversion_clear S as [|? ? S1 S2]. destruct (String.eqb_spec k0 k) as [->|N]; [left; auto|].
  specialize (IH k S1). destruct (obj_get m k); [right; auto|]. intros v [H|H]; [injection H as -> ->; auto|]. eapply IH; eauto.
Qed.
Lemma sorted_inj : forall m k v v', sorted m -> In (k, v) m -> In (k, v') m -> v = v'.
Proof.
  induction m as [|[k0 v0] m IH]; intros k v v' S; [intros []|]. inversion_clear S as [|? ? S1 S2]. rewrite Forall_forall in S2. intros [H|H] [H'|H'].
  - congruence.
  - injection H as -> ->. apply S2 in H'. exfalso. eapply slt_irrefl; exact H'.
  - injection H' as -> ->. apply S2 in H. exfalso. eapply slt_irrefl; exact H.
  - eauto.
Qed.

Lemma omap_length : forall A B (f : A -> option B) l r, omap f l = Some r -> length r = length l.
Proof. intros A B f l r H. apply omap_inv in H. symmetry. induction H; cbn; auto. Qed.
Lemma enum_length : forall A (l : list A), length (enum l) = length l.
Proof. intros A l. unfold enum. generalize 0. induction l; intros n; cbn; auto. Qed.
Section Write.
  Variable cf : jcfg.
  Variable wjson : option (Z -> json).
  Notation tp := (tpda string string).
  Notation names := (cf_names cf).
  Notation wk := (cf_w cf).
  Notation rule_of' := (rule_of names wk (cf_asserts cf)).
  Notation rules_of' := (rules_of names wk (cf_asserts cf)).
  Notation state_of' := (state_of names wk (cf_asserts cf)).
  (** The weight of a rule can be written and read. *)
  Definition wok (w : Z) : Prop :=
    match wjson with
    | None => wk = WVoid /\ w = 0%Z
    | Some f => exists ws, weight_of wk (f w) = Some ws /\ wval cf ws = w
    end.
  (** A rule of a document under label [l] is that of the automaton. *)
  Definition pr (T : tp) (l : string) (r : rule) (x : drule) : Prop :=
    resolves cf T (d_to x) (r_to r) /\ wval cf (d_w x) = r_w r /\
    match r_op r with
    | POP => d_op x = DPop
    | SWAP => exists k, get_symbol T (r_opl r) = Some k /\ d_op x = DSwap k
    | PUSH => exists k, get_symbol T (r_opl r) = Some k /\ d_op x = DPush k
    | NOOP => d_op x = DSwap l
    end.
  Lemma weight_regular : forall j ws, weight_of wk j = Some ws -> match wk with WVec _ _ _ => exists l, j = JArr l /\ no_arrays l | _ => True end.
  Proof.
    intros j ws H. unfold weight_of in H. destruct wk as [|sg lo hi|sg lo hi]; auto. destruct j as [| | | | |l|]; try discriminate. exists l. split; auto.
    revert ws H. induction l as [|j l IH]; intros ws H; [constructor|]. cbn in H. destruct (num_in sg lo hi j) as [z|] eqn:E; [|discriminate]. cbn in H. destruct (omap _ l) as [zs|] eqn:E2; [|discriminate].
    constructor; [|eapply IH; eauto]. destruct j; try discriminate. intros [].
  Qed.
  Lemma to_ok : forall T s j, (names = true -> forall n, get_state T s = Some n -> exists_state String.eqb T n = Some s) -> to_value names T s = Some j ->
    exists t, to_of names j = Some t /\ resolves cf T t s.
  Proof.
    intros T s j HN H. unfold to_value in H. unfold to_of, resolves. destruct names eqn:EN.
    - destruct (get_state T s) as [n|] eqn:E; [|discriminate]. injection H as <-. exists (SName n). split; auto.
    - injection H as <-. destruct (Z.ltb_spec (Z.of_nat s) 0); [lia|]. eexists. split; [reflexivity|]. cbn. rewrite Nat2Z.id. auto.
  Qed.
  Lemma rule_ok : forall T l r to t, to_of names to = Some t -> resolves cf T t (r_to r) -> wok (r_w r) ->
    (match r_op r with SWAP | PUSH => get_symbol T (r_opl r) <> None | _ => True end) ->
    exists m x, rule_json wjson T l r to = Some m /\ rule_of' m = Some x /\ regular_rule wk m /\ pr T l r x.
  Proof.
    intros T l r to t H1 H2 H3 H4. unfold rule_json.
    assert (HM : exists k v o, (match r_op r with
          | POP => Some [("pop", JStr "")]
          | SWAP => l <- get_symbol T (r_opl r) ;; Some [("swap", JStr l)]
          | NOOP => Some [("swap", JStr l)]
          | PUSH => l <- get_symbol T (r_opl r) ;; Some [("push", JStr l)]
          end) = Some [(k, JStr v)] /\ ((k = "pop" /\ v = "" /\ o = DPop) \/ (k = "swap" /\ o = DSwap v) \/ (k = "push" /\ o = DPush v)) /\
        match r_op r with
        | POP => o = DPop
        | SWAP => exists k, get_symbol T (r_opl r) = Some k /\ o = DSwap k
        | PUSH => exists k, get_symbol T (r_opl r) = Some k /\ o = DPush k
        | NOOP => o = DSwap l
        end).
    { destruct (r_op r).
      - destruct (get_symbol T (r_opl r)) as [k|]; [|congruence]. exists "push", k, (DPush k). cbn. split; auto. split; eauto 10.
      - exists "pop", "", DPop. auto 10.
      - destruct (get_symbol T (r_opl r)) as [k|]; [|congruence]. exists "swap", k, (DSwap k). cbn. split; auto. split; eauto 10.
      - exists "swap", l, (DSwap l). auto 10. }
    destruct HM as (k & v & o & -> & HK & HO). cbn [obind fold_left fst snd]. unfold wok in H3. destruct wjson as [f|].
    - destruct H3 as (ws & W1 & W2). assert (WR := weight_regular _ _ W1). eexists. exists (mk_drule t o ws). split; [reflexivity|].
      destruct wk as [|sg lo hi|sg lo hi] eqn:EW; [discriminate| |];
        (split; [destruct HK as [(-> & -> & ->)|[(-> & ->)|(-> & ->)]]; unfold rule_of; cbn -[to_of weight_of]; rewrite H1; cbn -[to_of weight_of]; rewrite ?andb_false_r; rewrite W1; reflexivity|]);
        (split; [unfold regular_rule; auto; destruct HK as [(-> & -> & ->)|[(-> & ->)|(-> & ->)]]; cbn; constructor; auto|]); repeat split; auto; unfold pr; cbn; auto.
    - destruct H3 as [W1 W2]. eexists. exists (mk_drule t o []). rewrite W1. split; [reflexivity|].
      split; [destruct HK as [(-> & -> & ->)|[(-> & ->)|(-> & ->)]]; unfold rule_of; cbn -[to_of weight_of]; rewrite H1; cbn; rewrite ?andb_false_r; reflexivity|].
      split; [exact I|]. unfold pr. cbn. split; auto. split; auto. unfold wval. rewrite W1. auto.
  Qed.

  Variables (cs : list (tcall string string)) (T : tp).
  Hypothesis HI : tinv string String.eqb string (cf_no_opl cf) cs T.
  Hypothesis HW : forall p e, In e (rules_at (t_rules T) p) -> wok (r_w (fst e)).
  Hypothesis HT : names = true -> forall p e, In e (rules_at (t_rules T) p) -> r_to (fst e) < length (t_states T).

  Definition vgood (v : json) (rs : list drule) : Prop :=
    rules_of' v = Some rs /\ regular_rules wk v /\ (match v with JObj _ | JArr _ => True | _ => False end) /\ rs <> [].
  Record sinv (acc : list (string * json)) (E : list (string * rule)) : Prop := {
    si_sorted : sorted acc;
    si_good : forall l v, In (l, v) acc -> exists rs, vgood v rs;
    si_sound : forall l v rs x, In (l, v) acc -> rules_of' v = Some rs -> In x rs -> exists r, In (l, r) E /\ pr T l r x;
    si_full : forall l r, In (l, r) E -> exists v rs x, In (l, v) acc /\ rules_of' v = Some rs /\ In x rs /\ pr T l r x }.
  Lemma omap_snoc : forall A B (f : A -> option B) l a ys y, omap f l = Some ys -> f a = Some y -> omap f (l ++ [a])%list = Some (ys ++ [y])%list.
  Proof.
    intros A B f. induction l as [|b l IH]; intros a ys y H1 H2; cbn in *; [injection H1 as <-; rewrite H2; reflexivity|]. destruct (f b) as [z|]; [|discriminate]. cbn in *. destruct (omap f l) as [zs|] eqn:E; [|discriminate].
    injection H1 as <-. rewrite (IH a zs y eq_refl H2). reflexivity.
  Qed.
  Lemma add_ok : forall acc E l r m x, sinv acc E -> rule_of' m = Some x -> regular_rule wk m -> pr T l r x ->
    sinv (add_rule_json acc l (JObj m)) (E ++ [(l, r)])%list.
  Proof.
    intros acc E l r m x [S1 S2 S3 S4] H1 H2 H3.
    assert (HV : exists v, add_rule_json acc l (JObj m) = obj_set acc l v /\
      match obj_get acc l with Some v0 => exists rs0, rules_of' v0 = Some rs0 /\ vgood v (rs0 ++ [x])%list | None => vgood v [x] end).
    { unfold add_rule_json. assert (G := obj_get_In acc l S1). destruct (obj_get acc l) as [v0|].
      - destruct (S2 _ _ G) as (rs0 & V1 & V2 & V3 & _). destruct v0 as [| | | | |l0|m0]; try destruct V3.
        + eexists. split; [reflexivity|]. exists rs0. split; auto. cbn in V1, V2. split; [|split; [|split; [exact I|]]].
          * cbn. apply omap_snoc; auto.
          * destruct V2 as [V2 V2']. split; apply Forall_app; split; auto.
          * destruct rs0; discriminate.
        + eexists. split; [reflexivity|]. exists rs0. split; auto. cbn in V1, V2. destruct (rule_of' m0) as [x0|] eqn:E0; [|discriminate]. injection V1 as <-. split; [|split; [|split; [exact I|]]].
          * cbn. rewrite E0, H1. reflexivity.
          * split; repeat constructor; auto.
          * discriminate.
      - eexists. split; [reflexivity|]. split; [cbn; rewrite H1; reflexivity|]. split; auto. split; [exact I|discriminate]. }
    destruct HV as (v & -> & HV). assert (G := obj_get_In acc l S1). constructor.
    - apply obj_set_sorted. auto.
    - intros l' v' H. apply obj_set_In in H; auto. destruct H as [[-> ->]|[_ H]]; [|eauto]. destruct (obj_get acc l); [destruct HV as (rs0 & _ & HV)|]; eauto.
    - intros l' v' rs x' H HR Hx. apply obj_set_In in H; auto. destruct H as [[-> ->]|[_ H]].
      + destruct (obj_get acc l) as [v0|].
        * destruct HV as (rs0 & V0 & V1 & _). assert (rs = rs0 ++ [x])%list by congruence. subst rs. apply in_app_or in Hx. destruct Hx as [Hx|[<-|[]]].
          -- destruct (S3 _ _ _ _ G V0 Hx) as (r' & R1 & R2). exists r'. split; auto. apply in_or_app; auto.
          -- exists r. split; auto. apply in_or_app; cbn; auto.
        * destruct HV as [V1 _]. assert (rs = [x]) by congruence. subst rs. destruct Hx as [<-|[]]. exists r. split; auto. apply in_or_app; cbn; auto.
      + destruct (S3 _ _ _ _ H HR Hx) as (r' & R1 & R2). exists r'. split; auto. apply in_or_app; auto.
    - intros l' r' Hin. apply in_app_or in Hin. destruct Hin as [Hin|[Hin|[]]].
      + destruct (S4 _ _ Hin) as (v' & rs & x' & K1 & K2 & K3 & K4). destruct (string_dec l' l) as [->|NE].
        * destruct (obj_get acc l) as [v0|]; [|destruct (G _ K1)]. assert (v' = v0) by (eapply sorted_inj; eauto). subst v'. destruct HV as (rs0 & V0 & V1 & _). assert (rs = rs0) by congruence. subst rs.
          exists v, (rs0 ++ [x])%list, x'. split; [apply obj_set_In; auto|]. split; auto. split; auto. apply in_or_app; auto.
        * exists v', rs, x'. split; [apply obj_set_In; auto|]. auto.
      + injection Hin as <- <-. exists v. destruct (obj_get acc l) as [v0|].
        * destruct HV as (rs0 & V0 & V1 & _). exists (rs0 ++ [x])%list, x. split; [apply obj_set_In; auto|]. split; auto. split; auto. apply in_or_app; cbn; auto.
        * destruct HV as [V1 _]. exists [x], x. split; [apply obj_set_In; auto|]. cbn. auto.
  Qed.

  Lemma stored_opl : forall p r i, stored (t_rules T) p r i -> match r_op r with SWAP | PUSH => get_symbol T (r_opl r) <> None | _ => True end.
  Proof.
    intros p r i H. apply (ti_rules _ _ _ _ _ _ HI) in H. destruct H as (o & opl & wc & pre & lid & H1 & H2 & H3 & _). rewrite H3. cbn. unfold find_labelid in H2.
    destruct o; auto; apply (label_nth string String.eqb string (cf_no_opl cf) String.eqb_eq cs) in H2; auto; change (get_symbol T lid <> None); congruence.
  Qed.
  Lemma state_name : forall s n, get_state T s = Some n -> exists_state String.eqb T n = Some s.
  Proof. intros s n H. apply (state_nth string String.eqb string String.eqb (cf_no_opl cf) String.eqb_eq cs); auto. Qed.
  Definition sym (i : nat) : string := match get_symbol T i with Some n => n | None => "" end.
  Definition entries (e : rule * labels) : list (string * rule) :=
    if wild (snd e) then [("*", fst e)] else map (fun i => (sym i, fst e)) (labs (snd e)).
  Lemma one_ok : forall acc E p r i l to t, sinv acc E -> stored (t_rules T) p r i -> to_of names to = Some t -> resolves cf T t (r_to r) -> wok (r_w r) ->
    exists m, rule_json wjson T l r to = Some m /\ sinv (add_rule_json acc l (JObj m)) (E ++ [(l, r)])%list.
  Proof.
    intros acc E p r i l to t HS HR H1 H2 HWr. destruct (rule_ok T l r to t H1 H2) as (m & x & M1 & M2 & M3 & M4); auto.
    - eapply stored_opl; eauto.
    - exists m. split; auto. eapply add_ok; eauto.
  Qed.
  Lemma entry_ok : forall p e acc E, In e (rules_at (t_rules T) p) -> sinv acc E -> exists acc',
    (to <- to_value names T (r_to (fst e)) ;;
      if wild (snd e) then m <- rule_json wjson T "*" (fst e) to ;; Some (add_rule_json acc "*" (JObj m))
      else ofold (fun acc l => n <- get_symbol T l ;; m <- rule_json wjson T n (fst e) to ;; Some (add_rule_json acc n (JObj m))) (labs (snd e)) acc) = Some acc' /\
    sinv acc' (E ++ entries e)%list.
  Proof.
    intros p [r ls] acc E He HS. cbn [fst snd]. assert (HTo : exists j, to_value names T (r_to r) = Some j).
    { unfold to_value. clear HS. assert (HT' := HT). clear HT. destruct names eqn:EN; [|eauto]. specialize (HT' eq_refl _ _ He). cbn in HT'. unfold get_state, ts_at. destruct (nth_error (t_states T) (r_to r)) eqn:E0; [cbn; eauto|]. apply nth_error_None in E0. lia. }
    destruct HTo as [to Eto]. rewrite Eto. cbn [obind]. destruct (to_ok T (r_to r) to) as (t & T1 & T2); auto; [intros _; apply state_name|]. assert (HWr := HW _ _ He). cbn [fst] in HWr.
    unfold entries. cbn [fst snd]. destruct (wild ls) eqn:EW.
    - destruct (one_ok acc E p r 0 "*" to t HS) as (m & M1 & M2); auto; [exists ls; auto|]. rewrite M1. cbn [obind]. eauto.
    - assert (HL : forall i, In i (labs ls) -> stored (t_rules T) p r i /\ get_symbol T i = Some (sym i)).
      { intros i Hi. split; [exists ls; auto|]. unfold sym. assert (L := ti_range _ _ _ _ _ _ HI _ _ _ _ He Hi). destruct (get_symbol T i) eqn:E0; auto. apply nth_error_None in E0. lia. }
      clear He EW. revert acc E HS HL. induction (labs ls) as [|i is IH]; intros acc E HS HL; cbn [ofold map].
      + exists acc. rewrite app_nil_r. auto.
      + destruct (HL i (or_introl eq_refl)) as [HL1 HL2]. rewrite HL2. cbn [obind]. destruct (one_ok acc E p r i (sym i) to t HS HL1 T1 T2 HWr) as (m & M1 & M2). rewrite M1. cbn [obind].
        destruct (IH _ _ M2) as (acc' & A1 & A2); [intros k Hk; apply HL; right; auto|]. exists acc'. split; auto. rewrite <- app_assoc in A2. exact A2.
  Qed.
  Lemma state_ok : forall p, exists acc, state_json wjson names T (nth p (pd_states (t_rules T)) empty_pstate) = Some acc /\ sinv acc (flat_map entries (rules_at (t_rules T) p)).
  Proof.
    intros p. unfold state_json. change (ps_rules (nth p (pd_states (t_rules T)) empty_pstate)) with (rules_at (t_rules T) p).
    assert (G : forall es acc E, (forall e, In e es -> In e (rules_at (t_rules T) p)) -> sinv acc E -> exists acc',
      ofold (fun acc e => to <- to_value names T (r_to (fst e)) ;;
      if wild (snd e) then m <- rule_json wjson T "*" (fst e) to ;; Some (add_rule_json acc "*" (JObj m))
      else ofold (fun acc l => n <- get_symbol T l ;; m <- rule_json wjson T n (fst e) to ;; Some (add_rule_json acc n (JObj m))) (labs (snd e)) acc) es acc = Some acc' /\
      sinv acc' (E ++ flat_map entries es)%list).
    { induction es as [|e es IH]; intros acc E H HS; cbn [ofold flat_map].
      - exists acc. rewrite app_nil_r. auto.
      - destruct (entry_ok p e acc E) as (a1 & A1 & A2); [apply H; cbn; auto|auto|]. rewrite A1. destruct (IH a1 _ (fun x Hx => H x (or_intror Hx)) A2) as (a2 & B1 & B2). exists a2. rewrite app_assoc. auto. }
    destruct (G (rules_at (t_rules T) p) [] []) as (acc & A1 & A2); auto.
    - constructor; [constructor|intros l v []|intros l v rs x []|intros l r []].
    - exists acc. auto.
  Qed.

  Hypothesis HN : names = true -> pd_n (t_rules T) = length (t_states T).
  Hypothesis HS : ~ In "*" (t_labels T).
  Lemma states_ok : exists ss, omap (state_json wjson names T) (pd_states (t_rules T)) = Some ss /\ length ss = pd_n (t_rules T) /\
    forall i o, nth_error ss i = Some o -> sinv o (flat_map entries (rules_at (t_rules T) i)).
  Proof.
    destruct (omap_def _ _ (state_json wjson names T) (pd_states (t_rules T))) as [ss E].
    { intros s Hs. apply (In_nth _ _ empty_pstate) in Hs. destruct Hs as (p & _ & <-). destruct (state_ok p) as (acc & A & _). congruence. }
    exists ss. split; auto. assert (F := omap_inv _ _ _ _ _ E). split; [clear - F; unfold pd_n; induction F; cbn; auto|]. intros i o Ho.
    assert (G : forall l r, Forall2 (fun x y => state_json wjson names T x = Some y) l r -> forall i y, nth_error r i = Some y -> state_json wjson names T (nth i l empty_pstate) = Some y).
    { clear. intros l r F. induction F as [|a b l r H F IH]; intros i y Hy; [destruct i; discriminate|]. destruct i; cbn in *; [congruence|auto]. }
    destruct (state_ok i) as (acc & A & B). rewrite (G _ _ F i o Ho) in A. injection A as ->. exact B.
  Qed.
  Lemma state_doc : forall o E, sinv o E -> regular_state wk (JObj o) /\ exists ms, state_of' (JObj o) = Some ms /\
    forall l rs, In (l, rs) ms <-> exists v, In (l, v) o /\ rules_of' v = Some rs.
  Proof.
    intros o E HO. split.
    - cbn. apply Forall_forall. intros [l v] H. destruct (si_good _ _ HO _ _ H) as (rs & V1 & V2 & _). exact V2.
    - destruct (omap_def _ _ (fun e => rs <- rules_of' (snd e) ;; Some (fst e, rs)) o) as [ms EM].
      { intros [l v] H. destruct (si_good _ _ HO _ _ H) as (rs & V1 & _). cbn. rewrite V1. discriminate. }
      exists ms. split; [exact EM|]. intros l rs. rewrite (omap_In _ _ _ _ _ _ EM). split.
      + intros ([l' v] & H1 & H2). cbn in H2. destruct (rules_of' v) as [rs'|] eqn:EV; [|discriminate]. injection H2 as -> ->. eauto.
      + intros (v & H1 & H2). exists (l, v). split; auto. cbn. rewrite H2. reflexivity.
  Qed.
  Lemma named_ok : forall es m E, NoDup (map fst (E ++ es)) -> (forall e, In e es -> fst e < length (t_states T)) -> sorted m ->
    (forall n v, In (n, v) m <-> exists i (o : list (string * json)), In (i, o) E /\ get_state T i = Some n /\ v = JObj o) ->
    exists m', ofold (fun acc e => n <- get_state T (fst e) ;; Some (obj_set acc n (JObj (snd e)))) es m = Some m' /\ sorted m' /\
    (forall n v, In (n, v) m' <-> exists i o, In (i, o) (E ++ es)%list /\ get_state T i = Some n /\ v = JObj o).
  Proof.
    induction es as [|[i o] es IH]; intros m E ND HL HSo HM; cbn [ofold].
    - exists m. rewrite app_nil_r. auto.
    - assert (Li := HL _ (or_introl eq_refl)). cbn [fst] in *. destruct (get_state T i) as [n|] eqn:EG; [|apply nth_error_None in EG; lia]. cbn [obind snd].
      destruct (IH (obj_set m n (JObj o)) (E ++ [(i, o)])%list) as (m' & M1 & M2 & M3).
      + rewrite <- app_assoc. exact ND.
      + intros e He. apply HL. right. auto.
      + apply obj_set_sorted. auto.
      + intros n' v. rewrite obj_set_In by auto. rewrite HM. split.
        * intros [[-> ->]|[H (i' & o' & H1 & H2)]]; [exists i, o|exists i', o']; (split; [apply in_or_app; cbn; auto|auto]).
        * intros (i' & o' & H1 & H2 & ->). apply in_app_or in H1. destruct H1 as [H1|[H1|[]]].
          -- right. split; [|eauto]. intros ->. assert (i' = i).
             { eapply (proj1 (NoDup_nth_error (t_states T)) (ti_snd _ _ _ _ _ _ HI)); [apply (nth_error_Some (t_states T)); unfold get_state, ts_at in H2; rewrite H2; discriminate|]. unfold get_state, ts_at in *. congruence. }
             subst i'. rewrite map_app in ND. cbn in ND. apply NoDup_remove_2 in ND. apply ND. apply in_or_app. left. apply in_map_iff. exists (i, o'). auto.
          -- injection H1 as <- <-. left. split; congruence.
      + exists m'. split; auto. split; auto. intros n' v. rewrite M3. rewrite <- app_assoc. cbn. tauto.
  Qed.
  Lemma enum_fst : forall A (l : list A), map fst (enum l) = seq 0 (length l).
  Proof.
    intros A l. unfold enum. generalize 0. induction l as [|a l IH]; intros n; cbn; auto. f_equal. auto.
  Qed.
  Notation doc_of' := (doc_of names wk (cf_asserts cf)).
  Lemma value_ok : exists j d, pda_value wjson names T = Some j /\ regular_pda wk j /\ pda_of names wk (cf_asserts cf) j = Some d /\
    (forall f ms, In (f, ms) d -> exists i, resolves cf T f i /\ i < pd_n (t_rules T)) /\
    (forall i, i < pd_n (t_rules T) -> exists f ms, resolves cf T f i /\ In (f, ms) d) /\ (names = false -> length d = pd_n (t_rules T)) /\
    (forall f ms l rs x, In (f, ms) d -> In (l, rs) ms -> In x rs -> exists i r, resolves cf T f i /\ In (l, r) (flat_map entries (rules_at (t_rules T) i)) /\ pr T l r x) /\
    (forall i l r, In (l, r) (flat_map entries (rules_at (t_rules T) i)) -> exists f ms rs x, resolves cf T f i /\ In (f, ms) d /\ In (l, rs) ms /\ In x rs /\ pr T l r x) /\
    (forall f ms l rs, In (f, ms) d -> In (l, rs) ms -> rs <> []).
  Proof.
    destruct states_ok as (ss & E1 & E2 & E3). unfold pda_value. rewrite E1. cbn [obind].
    assert (HJ : forall b, b = names -> exists js d, (if b then
             m <- ofold (fun acc e => n <- get_state T (fst e) ;; Some (obj_set acc n (JObj (snd e)))) (enum ss) [] ;;
             m <- ofold (fun acc i => n <- get_state T i ;; Some (obj_set acc n (JObj [])))
                    (seq (length ss) (length (t_states T) - length ss)) m ;;
             Some (JObj m)
           else Some (JArr (map JObj ss))) = Some js /\ regular_states wk js /\ states_of names wk (cf_asserts cf) js = Some d /\
        (b = false -> length d = length ss) /\ forall f ms, In (f, ms) d <-> exists i o, resolves cf T f i /\ nth_error ss i = Some o /\ state_of' (JObj o) = Some ms).
    { intros [] EN.
      - destruct (named_ok (enum ss) [] []) as (m & M1 & M2 & M3).
        + cbn. rewrite enum_fst. apply seq_NoDup.
        + intros [i o] H. apply enum_In in H. apply nth_error_lt in H. cbn. rewrite E2, (HN (eq_sym EN)) in H. exact H.
        + constructor.
        + intros n v. split; [intros []|intros (i & o & [] & _)].
        + rewrite M1. cbn [obind]. rewrite E2, (HN (eq_sym EN)), Nat.sub_diag. cbn [seq ofold obind].
          assert (M4 : forall n v, In (n, v) m <-> exists i o, nth_error ss i = Some o /\ get_state T i = Some n /\ v = JObj o).
          { intros n v. rewrite M3. cbn. split; intros (i & o & H1 & H2); exists i, o; split; auto; apply enum_In; auto. }
          destruct (omap_def _ _ (fun e => s <- state_of' (snd e) ;; Some (SName (fst e), s)) m) as [d ED].
          { intros [n v] H. apply M4 in H. destruct H as (i & o & H1 & H2 & ->). destruct (state_doc _ _ (E3 _ _ H1)) as [_ (ms & S1 & _)]. cbn [snd]. rewrite S1. discriminate. }
          exists (JObj m), d. split; auto. split.
          { cbn. apply Forall_forall. intros [n v] H. apply M4 in H. destruct H as (i & o & H1 & H2 & ->). apply (state_doc _ _ (E3 _ _ H1)). }
          split; [unfold states_of; rewrite <- EN; rewrite <- EN in ED; exact ED|]. split; [discriminate|]. intros f ms. rewrite (omap_In _ _ _ _ _ _ ED). split.
          * intros ([n v] & H & H0). cbn [fst snd] in H0. destruct (state_of' v) as [ms'|] eqn:EV; [|discriminate]. injection H0 as <- ->. apply M4 in H. destruct H as (i & o & H1 & H2 & ->). exists i, o. split; [split; auto; apply state_name; auto|auto].
          * intros (i & o & H1 & H2 & H3). destruct f as [n|k]; [|destruct H1; congruence]. destruct H1 as [_ H1]. exists (n, JObj o). split.
            -- apply M4. exists i, o. split; auto. split; auto. apply (state_nth string String.eqb string String.eqb (cf_no_opl cf) String.eqb_eq cs); auto.
            -- cbn [fst snd]. rewrite H3. reflexivity.
      - destruct (omap_def _ _ (fun e => s <- state_of' (snd e) ;; Some (SNum (fst e), s)) (enum (map JObj ss))) as [d ED].
        { intros [n v] H. apply enum_In in H. rewrite nth_error_map in H. destruct (nth_error ss n) as [o|] eqn:EO; [|discriminate]. injection H as <-. destruct (state_doc _ _ (E3 _ _ EO)) as [_ (ms & S1 & _)]. cbn [snd]. rewrite S1. discriminate. }
        exists (JArr (map JObj ss)), d. split; auto. split.
        { cbn. split; apply Forall_forall; intros v H; apply in_map_iff in H; destruct H as (o & <- & H); [intros []|]. apply In_nth_error in H. destruct H as [i H]. apply (state_doc _ _ (E3 _ _ H)). }
        split; [unfold states_of; rewrite <- EN; rewrite <- EN in ED; exact ED|]. split; [intros _; rewrite (omap_length _ _ _ _ _ ED), enum_length; apply map_length|]. intros f ms. rewrite (omap_In _ _ _ _ _ _ ED). split.
        + intros ([n v] & H & H0). cbn [fst snd] in H0. destruct (state_of' v) as [ms'|] eqn:EV; [|discriminate]. injection H0 as <- ->. apply enum_In in H. rewrite nth_error_map in H. destruct (nth_error ss n) as [o|] eqn:EO; [|discriminate]. injection H as <-. exists n, o. split; [split; auto|auto].
        + intros (i & o & H1 & H2 & H3). destruct f as [n|k]; [destruct H1; congruence|]. destruct H1 as [_ ->]. exists (k, JObj o). split.
          * apply enum_In. rewrite nth_error_map, H2. reflexivity.
          * cbn [fst snd]. rewrite H3. reflexivity. }
    destruct (HJ _ eq_refl) as (js & d & J1 & J2 & J3 & JL & J4). rewrite J1. cbn [obind]. eexists. exists d. split; [reflexivity|]. split; [repeat constructor; exact J2|]. split; [exact J3|]. 
    assert (HF : forall i, i < pd_n (t_rules T) -> exists f, resolves cf T f i).
    { intros i Li. assert (HB : forall b, b = names -> exists f, resolves cf T f i); [|apply (HB _ eq_refl)]. intros [] EN.
      - rewrite (HN (eq_sym EN)) in Li. apply nth_error_Some in Li. destruct (nth_error (t_states T) i) as [n|] eqn:En; [|congruence]. exists (SName n). split; auto. apply state_name. exact En.
      - exists (SNum i). split; auto. }
    split; [|split; [|split; [rewrite <- E2; exact JL|split; [|split]]]].
    - intros f ms Hd. apply J4 in Hd. destruct Hd as (i & o & H1 & H2 & H3). exists i. split; auto. rewrite <- E2. apply nth_error_Some. congruence.
    - intros i Li. destruct (HF i Li) as [f Hf]. destruct (nth_error ss i) as [o|] eqn:EO; [|apply nth_error_None in EO; lia]. destruct (state_doc _ _ (E3 _ _ EO)) as [_ (ms & S1 & _)]. exists f, ms. split; auto. apply J4. eauto.
    - intros f ms l rs x Hd Hm Hx. apply J4 in Hd. destruct Hd as (i & o & H1 & H2 & H3). assert (HO := E3 _ _ H2). destruct (state_doc _ _ HO) as [_ (ms' & S1 & S2)]. assert (ms' = ms) by congruence. subst ms'.
      apply S2 in Hm. destruct Hm as (v & V1 & V2). destruct (si_sound _ _ HO _ _ _ _ V1 V2 Hx) as (r & R1 & R2). eauto 10.
    - intros i l r Hin. assert (Li : i < pd_n (t_rules T)). { destruct (Nat.lt_ge_cases i (pd_n (t_rules T))); auto. rewrite rules_at_overflow in Hin by auto. destruct Hin. }
      destruct (nth_error ss i) as [o|] eqn:EO; [|apply nth_error_None in EO; lia]. assert (HO := E3 _ _ EO). destruct (state_doc _ _ HO) as [_ (ms & S1 & S2)].
      destruct (si_full _ _ HO _ _ Hin) as (v & rs & x & V1 & V2 & V3 & V4).
      destruct (HF i Li) as [f Hf]. exists f, ms, rs, x. split; auto. split; [apply J4; eauto|]. split; [apply S2; eauto|]. auto.
    - intros f ms l rs Hd Hm. apply J4 in Hd. destruct Hd as (i & o & H1 & H2 & H3). assert (HO := E3 _ _ H2). destruct (state_doc _ _ HO) as [_ (ms' & S1 & S2)]. assert (ms' = ms) by congruence. subst ms'.
      apply S2 in Hm. destruct Hm as (v & V1 & V2). destruct (si_good _ _ HO _ _ V1) as (rs' & G1 & _ & _ & G2). congruence.
  Qed.
  Lemma doc_ok : exists j d, to_json wjson names T = Some j /\ regular wk j /\ doc_of' j = Some d /\
    (forall f ms l rs x, In (f, ms) d -> In (l, rs) ms -> In x rs -> exists i r, resolves cf T f i /\ In (l, r) (flat_map entries (rules_at (t_rules T) i)) /\ pr T l r x) /\
    (forall i l r, In (l, r) (flat_map entries (rules_at (t_rules T) i)) -> exists f ms rs x, resolves cf T f i /\ In (f, ms) d /\ In (l, rs) ms /\ In x rs /\ pr T l r x) /\
    (forall f ms l rs, In (f, ms) d -> In (l, rs) ms -> rs <> []).
  Proof.
    destruct value_ok as (p & d & H1 & H2 & H3 & _ & _ & _ & H4). exists (JObj [("pda", p)]), d. unfold to_json. rewrite H1. split; auto. split; auto. repeat constructor; exact H2.
  Qed.

  (** The rules of the automaton, from what is stored. *)
  Definition lists (tr : trule string) : Prop :=
    exists r i, stored (t_rules T) (tr_from tr) r i /\ get_symbol T i = Some (tr_pre tr) /\ r_to r = tr_to tr /\ r_op r = tr_op tr /\ r_w r = tr_w tr /\
      match r_op r with SWAP | PUSH => get_symbol T (r_opl r) = Some (tr_opl tr) | _ => tr_opl tr = "" end.
  Lemma sym_iff : forall l i, exists_label String.eqb T l = Some i <-> get_symbol T i = Some l.
  Proof. intros l i. apply (label_nth string String.eqb string (cf_no_opl cf) String.eqb_eq cs). exact HI. Qed.
  Lemma rules_listed : exists rs, all_rules "" T = Some rs /\ forall tr, In tr rs <-> lists tr.
  Proof.
    destruct (all_rules_spec string String.eqb "" string (cf_no_opl cf) String.eqb_eq cs T HI) as (rs & R1 & R2). exists rs. split; auto. intros tr. rewrite R2. split.
    - intros (opl & wc & pre & H1 & H2 & H3). destruct (ti_pre _ _ _ _ _ _ HI _ _ _ _ _ _ _ H1) as [K1 K2]. destruct (find_labelid String.eqb (cf_no_opl cf) T (tr_op tr) opl) as [lid|] eqn:EL; [|congruence].
      assert (HL : exists i, get_symbol T i = Some (tr_pre tr) /\ (wc = true \/ exists l, In l pre /\ exists_label String.eqb T l = Some i)).
      { destruct wc.
        - apply (ti_labs _ _ _ _ _ _ HI) in H3. apply In_nth_error in H3. destruct H3 as [i H3]. exists i. auto.
        - specialize (K2 _ H3). destruct (exists_label String.eqb T (tr_pre tr)) as [i|] eqn:EI; [|congruence]. exists i. split; [apply sym_iff; auto|eauto]. }
      destruct HL as (i & L1 & L2). exists (mk_rule (tr_to tr) (tr_op tr) lid (tr_w tr)), i. cbn [r_to r_op r_opl r_w]. split.
      + apply (ti_rules _ _ _ _ _ _ HI). exists (tr_op tr), opl, wc, pre, lid. cbn. auto.
      + split; auto. split; auto. split; auto. split; auto. unfold find_labelid in EL. destruct (tr_op tr); auto; rewrite H2; apply sym_iff; auto.
    - intros (r & i & H1 & H2 & H3 & H4 & H5 & H6). apply (ti_rules _ _ _ _ _ _ HI) in H1. destruct H1 as (o & opl & wc & pre & lid & K1 & K2 & K3 & K4).
      assert (o = tr_op tr) by (rewrite <- H4, K3; reflexivity). subst o. rewrite H3, H5 in K1. exists opl, wc, pre. split; auto. split.
      + assert (EO : r_opl r = lid) by (rewrite K3; reflexivity). rewrite EO, H4 in H6. unfold find_labelid in K2. destruct (tr_op tr); auto; apply sym_iff in K2; congruence.
      + destruct wc; [apply (ti_labs _ _ _ _ _ _ HI); eapply nth_error_In; exact H2|]. destruct K4 as [K4|(l & K4 & K5)]; [discriminate|]. apply sym_iff in K5. congruence.
  Qed.
  Lemma entries_iff : forall p l r, In (l, r) (flat_map entries (rules_at (t_rules T) p)) <->
    exists ls, In (r, ls) (rules_at (t_rules T) p) /\ (if wild ls then l = "*" else exists i, In i (labs ls) /\ get_symbol T i = Some l).
  Proof.
    intros p l r. rewrite in_flat_map. split.
    - intros ([r' ls] & H1 & H2). unfold entries in H2. cbn [fst snd] in H2. exists ls. destruct (wild ls) eqn:E.
      + destruct H2 as [H2|[]]. injection H2 as <- <-. auto.
      + apply in_map_iff in H2. destruct H2 as (i & H2 & H3). injection H2 as <- <-. split; auto. exists i. split; auto. unfold sym. assert (L := ti_range _ _ _ _ _ _ HI _ _ _ _ H1 H3). destruct (get_symbol T i) eqn:E0; auto. apply nth_error_None in E0. lia.
    - intros (ls & H1 & H2). exists (r, ls). split; auto. unfold entries. cbn [fst snd]. destruct (wild ls); [subst l; cbn; auto|]. destruct H2 as (i & H2 & H3). apply in_map_iff. exists i. split; auto. unfold sym. rewrite H3. reflexivity.
  Qed.
  Lemma star_no : forall i, get_symbol T i <> Some "*".
  Proof. intros i H. apply HS. eapply nth_error_In. exact H. Qed.
  Lemma rules_of_doc : forall d,
    (forall f ms l rs x, In (f, ms) d -> In (l, rs) ms -> In x rs -> exists i r, resolves cf T f i /\ In (l, r) (flat_map entries (rules_at (t_rules T) i)) /\ pr T l r x) ->
    (forall i l r, In (l, r) (flat_map entries (rules_at (t_rules T) i)) -> exists f ms rs x, resolves cf T f i /\ In (f, ms) d /\ In (l, rs) ms /\ In x rs /\ pr T l r x) ->
    (forall f ms l rs, In (f, ms) d -> In (l, rs) ms -> rs <> []) ->
    exists rs, all_rules "" T = Some rs /\
    (forall n, written_over (t_labels T) d n -> exists r, In r rs /\ denotes cf T n r) /\
    (forall r, In r rs -> exists n, written_over (t_labels T) d n /\ denotes cf T n r) /\
    (forall l, In l (doc_labels d) -> In l (t_labels T)).
  Proof.
    intros d J4 J5 J6. destruct rules_listed as (rs & R1 & R2). exists rs. split; auto. split; [|split].
    - intros n (ms & l & xs & x & H1 & H2 & H3 & H4 & H5 & H6). destruct (J4 _ _ _ _ _ H1 H2 H3) as (p & r & P1 & P2 & (Q1 & Q2 & Q3)). apply entries_iff in P2. destruct P2 as (ls & L1 & L2).
      assert (HP : exists i, stored (t_rules T) p r i /\ get_symbol T i = Some (n_pre n)).
      { destruct (wild ls) eqn:EW.
        - subst l. cbn in H6. destruct H6 as [H6 _]. apply In_nth_error in H6. destruct H6 as [i H6]. exists i. split; [exists ls; auto|auto].
        - destruct L2 as (i & L2 & L3). assert (NE : l <> "*") by (intros ->; eapply star_no; eauto). apply String.eqb_neq in NE. rewrite NE in H6. destruct H6 as [H6 _]. exists i. split; [exists ls; auto|congruence]. }
      destruct HP as (i & HP1 & HP2). assert (HO := stored_opl _ _ _ HP1).
      exists (mk_trule p (n_pre n) (r_to r) (r_op r) (match r_op r with SWAP | PUSH => match get_symbol T (r_opl r) with Some k => k | None => "" end | _ => "" end) (r_w r)). split.
      + apply R2. exists r, i. cbn. split; auto. split; auto. split; auto. split; auto. split; auto. destruct (r_op r); auto; destruct (get_symbol T (r_opl r)); congruence.
      + unfold denotes. cbn. rewrite H4, H5. split; auto. split; auto. split; auto. split; auto.
        destruct (String.eqb_spec l "*") as [->|NE].
        * destruct H6 as [_ ->]. destruct (r_op r).
          -- destruct Q3 as (k & K1 & ->). rewrite K1. auto.
          -- rewrite Q3. auto.
          -- destruct Q3 as (k & K1 & ->). destruct (String.eqb_spec k "*") as [->|_]; [destruct (star_no _ K1)|]. rewrite K1. auto.
          -- rewrite Q3. cbn. auto.
        * destruct H6 as [-> ->]. destruct (r_op r).
          -- destruct Q3 as (k & K1 & ->). rewrite K1. auto.
          -- rewrite Q3. auto.
          -- destruct Q3 as (k & K1 & ->). rewrite K1. auto.
          -- rewrite Q3. auto.
    - intros tr Htr. apply R2 in Htr. destruct Htr as (r & i & (ls & L1 & L2) & H2 & H3 & H4 & H5 & H6).
      set (l := if wild ls then "*" else tr_pre tr).
      destruct (J5 (tr_from tr) l r) as (f & ms & xs & x & F1 & F2 & F3 & F4 & (Q1 & Q2 & Q3)).
      { apply entries_iff. exists ls. split; auto. unfold l. destruct (wild ls); auto. destruct L2 as [L2|L2]; [discriminate|]. eauto. }
      exists (mk_nrule f (tr_pre tr) (d_to x) (if String.eqb l "*" then match d_op x with DSwap k => if String.eqb k "*" then DSwap (tr_pre tr) else DSwap k | o => o end else d_op x) (d_w x)). split.
      + exists ms, l, xs, x. cbn. split; auto. split; auto. split; auto. split; auto. split; auto. destruct (String.eqb_spec l "*") as [EL|NE].
        * split; auto. eapply nth_error_In. exact H2.
        * split; auto. unfold l in *. destruct (wild ls); congruence.
      + unfold denotes. cbn. rewrite <- H3. split; auto. split; auto. split; auto. split; [congruence|]. rewrite <- H4.
        destruct (String.eqb_spec l "*") as [EL|NE].
        * destruct (r_op r).
          -- destruct Q3 as (k & K1 & ->). split; congruence.
          -- rewrite Q3. auto.
          -- destruct Q3 as (k & K1 & ->). destruct (String.eqb_spec k "*") as [->|_]; [destruct (star_no _ K1)|]. left. split; congruence.
          -- rewrite Q3, EL. cbn. auto.
        * destruct (r_op r).
          -- destruct Q3 as (k & K1 & ->). split; congruence.
          -- rewrite Q3. auto.
          -- destruct Q3 as (k & K1 & ->). left. split; congruence.
          -- rewrite Q3. right. split; auto. unfold l in *. destruct (wild ls); congruence.
    - intros l Hl. unfold doc_labels in Hl. apply in_flat_map in Hl. destruct Hl as ([f ms] & H1 & Hl). apply in_flat_map in Hl. destruct Hl as ([k rs0] & H2 & Hl). cbn [fst snd] in *.
      assert (HK : forall x, In x rs0 -> exists p r, pr T k r x /\ In (k, r) (flat_map entries (rules_at (t_rules T) p))) by (intros x Hx; destruct (J4 _ _ _ _ _ H1 H2 Hx) as (p & r & _ & P2 & P3); eauto).
      assert (HE : forall p r, In (k, r) (flat_map entries (rules_at (t_rules T) p)) -> k = "*" \/ In k (t_labels T)).
      { intros p r H. apply entries_iff in H. destruct H as (ls & _ & H). destruct (wild ls); auto. destruct H as (i & _ & H). right. eapply nth_error_In. exact H. }
      apply in_app_or in Hl. destruct Hl as [Hl|Hl].
      + unfold pre_labels in Hl. destruct (String.eqb_spec k "*") as [->|NE]; [destruct Hl|]. destruct Hl as [<-|[]]. destruct rs0 as [|x rs0]; [destruct (J6 _ _ _ _ H1 H2 eq_refl)|].
        destruct (HK x (or_introl eq_refl)) as (p & r & _ & H). destruct (HE _ _ H); congruence.
      + apply in_flat_map in Hl. destruct Hl as (x & Hx & Hl). destruct (HK x Hx) as (p & r & (_ & _ & P3) & H). apply HE in H. unfold op_labels in Hl. destruct (r_op r).
        * destruct P3 as (y & Y1 & Y2). rewrite Y2 in Hl. destruct Hl as [<-|[]]. eapply nth_error_In. exact Y1.
        * rewrite P3 in Hl. destruct Hl.
        * destruct P3 as (y & Y1 & Y2). rewrite Y2 in Hl. destruct (_ && _) in Hl; [destruct Hl|]. destruct Hl as [<-|[]]. eapply nth_error_In. exact Y1.
        * rewrite P3 in Hl. destruct (String.eqb_spec k "*") as [->|NE]; cbn in Hl; [destruct Hl|]. destruct Hl as [<-|[]]. destruct H; congruence.
  Qed.
  Lemma write_rules : exists j d rs, to_json wjson names T = Some j /\ regular wk j /\ doc_of' j = Some d /\ all_rules "" T = Some rs /\
    (forall n, written_over (t_labels T) d n -> exists r, In r rs /\ denotes cf T n r) /\
    (forall r, In r rs -> exists n, written_over (t_labels T) d n /\ denotes cf T n r) /\
    (forall l, In l (doc_labels d) -> In l (t_labels T)).
  Proof.
    destruct doc_ok as (j & d & J1 & J2 & J3 & J4 & J5 & J6). destruct (rules_of_doc d J4 J5 J6) as (rs & R). exists j, d, rs. auto.
  Qed.
End Write.

(** What calls leave behind, also for rules without labels. *)
Lemma calls_entries_gen : forall cf asserts N cs2 cs1 T T', tinv string String.eqb string (cf_no_opl cf) cs1 T ->
  do_tcalls String.eqb String.eqb (cf_no_opl cf) asserts cs2 T = Some T' -> length (t_states T') <= N ->
  (forall p e, In e (rules_at (t_rules T) p) -> exists o opl wc pre, In (TRule p (r_to (fst e)) o opl wc pre (r_w (fst e))) cs1) ->
  (forall p to o opl wc pre w, In (TRule p to o opl wc pre w) cs2 -> p < N /\ to < N) -> pd_n (t_rules T) <= N ->
  (forall p e, In e (rules_at (t_rules T') p) -> exists o opl wc pre, In (TRule p (r_to (fst e)) o opl wc pre (r_w (fst e))) (cs1 ++ cs2)) /\ pd_n (t_rules T') <= N.
Proof.
  intros cf asserts N. induction cs2 as [|c cs2 IH]; intros cs1 T T' HI H HL HE HB HP; cbn in H.
  - injection H as <-. rewrite app_nil_r. auto.
  - destruct (do_tcall String.eqb String.eqb (cf_no_opl cf) asserts T c) as [T1|] eqn:E; [|discriminate]. cbn in H.
    destruct (tcall_inv string String.eqb string String.eqb (cf_no_opl cf) String.eqb_eq String.eqb_eq _ _ _ _ _ HI E) as [HI1 HL1].
    destruct (tcalls_inv_gen string String.eqb string String.eqb (cf_no_opl cf) String.eqb_eq String.eqb_eq asserts cs2 _ _ _ HI1 H) as [_ (_ & (ss & HL2) & _)].
    destruct (IH (cs1 ++ [c])%list T1 T' HI1 H HL) as [G1 G2].
    + destruct c as [l|s|from to o opl wc pre w]; cbn in E.
      * injection E as <-. unfold insert_label. destruct (ts_insert _ _ _) as [ls [b i]]. cbn. intros p e He. destruct (HE p e He) as (o & opl & wc & pre & X). exists o, opl, wc, pre. apply in_or_app; auto.
      * injection E as <-. unfold insert_state. destruct (ts_insert _ _ _) as [ls [b i]]. cbn [fst t_rules]. intros p e. rewrite add_state_rules. intros He. destruct (HE p e He) as (o & opl & wc & pre & X). exists o, opl, wc, pre. apply in_or_app; auto.
      * unfold t_add_rule in E. destruct (find_labelid _ _ _ _ _) as [lid|]; [|discriminate]. cbn [obind] in E. destruct (encode_pre _ _ _) as [ids|]; [|discriminate]. cbn [obind] in E. destruct (_ && _) in E; [discriminate|]. injection E as <-. cbn [t_rules].
        intros p [r ls] He. cbn [fst]. rewrite add_rule_rules_at in He. assert (HO : In (r, ls) (rules_at (t_rules T) p) -> exists o' opl' wc' pre', In (TRule p (r_to r) o' opl' wc' pre' (r_w r)) (cs1 ++ [TRule from to o opl wc pre w])).
        { intros X. destruct (HE p _ X) as (o' & opl' & wc' & pre' & Y). exists o', opl', wc', pre'. apply in_or_app; auto. }
        destruct (Nat.eqb_spec from p) as [->|_]; auto. apply vm_emplace_mod_In in He; [|apply HI]. destruct He as [[_ He]|[-> _]]; auto. exists o, opl, wc, pre. cbn. apply in_or_app. cbn. auto.
    + intros p to o opl wc pre w X. eapply HB. right. exact X.
    + destruct c as [l|s|from to o opl wc pre w]; cbn in E.
      * injection E as <-. unfold insert_label. destruct (ts_insert _ _ _) as [ls [b i]]. cbn. exact HP.
      * injection E as <-. unfold insert_state in *. destruct (ts_insert String.eqb (t_states T) s) as [ls [b i]] eqn:EI. cbn [fst snd t_rules t_states] in *. rewrite add_state_n.
        destruct (ts_insert_spec string String.eqb String.eqb_eq _ _ _ _ _ EI (ti_snd _ _ _ _ _ _ HI)) as (_ & Hn & _). apply nth_error_lt in Hn. rewrite HL2, app_length in HL. lia.
      * unfold t_add_rule in E. destruct (find_labelid _ _ _ _ _) as [lid|]; [|discriminate]. cbn [obind] in E. destruct (encode_pre _ _ _) as [ids|]; [|discriminate]. cbn [obind] in E. destruct (_ && _) in E; [discriminate|]. injection E as <-. cbn [t_rules].
        rewrite add_rule_n. cbn. destruct (HB _ _ _ _ _ _ _ (or_introl eq_refl)). lia.
    + rewrite <- app_assoc in G1. auto.
Qed.
