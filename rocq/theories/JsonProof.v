(** Proofs about the reading of JSON documents (JsonModel). *)
From Coq Require Import List Arith Lia Bool ZArith String.
From Verif Require Import Base BaseFacts PdaModel PdaProof TrieModel RefineModel MappingProof TypedModel TypedProof JsonModel JsonSpec.
Import ListNotations.
Open Scope string_scope.

Lemma run_app : forall S (step : S -> event -> option (hres S)) a b s,
  run step (a ++ b)%list s = match run step a s with Some (Go s') => run step b s' | r => r end.
Proof. intros S step. induction a as [|e a IH]; intros b s; cbn; auto. destruct (step s e) as [[s'|s'|]|]; auto. Qed.

Lemma f2_impl : forall A B (R R' : A -> B -> Prop) l l', (forall a b, R a b -> R' a b) -> Forall2 R l l' -> Forall2 R' l l'.
Proof. intros A B R R' l l' H F. induction F; constructor; auto. Qed.

Section Read.
  Variable cf : jcfg.
  Hypothesis not_embedded : cf_embedded cf = false.
  Notation tp := (tpda string string).
  Notation call := (tcall string string).
  Notation step := (ph_step cf).
  Notation dot := (do_tcalls String.eqb String.eqb (cf_no_opl cf) true).
  Definition good (T : tp) : Prop := exists cs, tinv string String.eqb string (cf_no_opl cf) cs T.
  Definition tleq := tle string string.

  (** Calls by name. *)
  Inductive ncall := NLabel (l : string) | NState (s : string) | NRule (f t : sref) (o : dop) (pre : string) (w : list Z).
  Definition resolves (T : tp) (s : sref) (i : nat) : Prop :=
    match s with SName n => cf_names cf = true /\ exists_state String.eqb T n = Some i | SNum n => cf_names cf = false /\ i = n end.
  Definition cop (pre : string) (o : dop) : op * string :=
    match o with
    | DPop => (POP, "")
    | DSwap l => if String.eqb pre "*" && String.eqb l "*" then (NOOP, "") else (SWAP, l)
    | DPush l => (PUSH, l)
    end.
  Definition crel (T : tp) (n : ncall) (c : call) : Prop :=
    match n with
    | NLabel l => c = TLabel l
    | NState s => c = TState s
    | NRule f t o pre w => exists i j, resolves T f i /\ resolves T t j /\
        c = TRule i j (fst (cop pre o)) (snd (cop pre o)) (String.eqb pre "*") (pre_labels pre) (wval cf w)
    end.
  Definition eff (T T' : tp) (Q : ncall -> Prop) : Prop :=
    exists ncs cs, dot cs T = Some T' /\ Forall2 (crel T') ncs cs /\ forall c, In c ncs <-> Q c.

  Lemma dot_app : forall a b T, dot (a ++ b)%list T = match dot a T with Some T' => dot b T' | None => None end.
  Proof. unfold do_tcalls. induction a as [|c a IH]; intros b T; cbn; auto. destruct (do_tcall _ _ _ _ _ _); cbn; auto. Qed.
  Lemma dot_good : forall cs T T', good T -> dot cs T = Some T' -> good T' /\ tleq T T'.
  Proof.
    intros cs T T' [cs0 H] E. destruct (tcalls_inv_gen string String.eqb string String.eqb (cf_no_opl cf) String.eqb_eq String.eqb_eq true cs cs0 T T' H E) as [H1 H2].
    split; auto. exists (cs0 ++ cs)%list. auto.
  Qed.
  Lemma resolves_mono : forall T T' s i, tleq T T' -> resolves T s i -> resolves T' s i.
  Proof. intros T T' [n|n] i HL H; cbn in *; auto. destruct H as [H1 H2]. split; auto. eapply (tle_state string string String.eqb String.eqb_eq); eauto. Qed.
  Lemma crel_mono : forall T T' n c, tleq T T' -> crel T n c -> crel T' n c.
  Proof. intros T T' [l|s|f t o pre w] c HL H; cbn in *; auto. destruct H as (i & j & H1 & H2 & H3). exists i, j. split; [eapply resolves_mono; eauto|]. split; [eapply resolves_mono; eauto|auto]. Qed.
  Lemma eff_refl : forall T Q, (forall c, ~ Q c) -> eff T T Q.
  Proof. intros T Q H. exists [], []. split; [reflexivity|]. split; [constructor|]. intros c. split; [intros []|intros K; exfalso; eapply H; eauto]. Qed.
  Lemma eff_good : forall T T' Q, good T -> eff T T' Q -> good T' /\ tleq T T'.
  Proof. intros T T' Q HG (ncs & cs & H & _). eapply dot_good; eauto. Qed.
  Lemma eff_trans : forall T1 T2 T3 Q1 Q2, good T1 -> eff T1 T2 Q1 -> eff T2 T3 Q2 -> eff T1 T3 (fun c => Q1 c \/ Q2 c).
  Proof.
    intros T1 T2 T3 Q1 Q2 HG (n1 & c1 & A1 & A2 & A3) (n2 & c2 & B1 & B2 & B3). destruct (dot_good _ _ _ HG A1) as [HG2 _]. destruct (dot_good _ _ _ HG2 B1) as [_ HL].
    exists (n1 ++ n2)%list, (c1 ++ c2)%list. split; [rewrite dot_app, A1; auto|]. split.
    - apply Forall2_app; auto. eapply f2_impl; [|exact A2]. intros a b. apply crel_mono; auto.
    - intros c. rewrite in_app_iff, A3, B3. tauto.
  Qed.
  Lemma eff_iff : forall T T' Q Q', eff T T' Q -> (forall c, Q c <-> Q' c) -> eff T T' Q'.
  Proof. intros T T' Q Q' (n & c & H1 & H2 & H3) HQ. exists n, c. split; auto. split; auto. intros x. rewrite H3. auto. Qed.
  Lemma eff_label : forall T l, good T -> eff T (fst (insert_label String.eqb T l)) (fun c => c = NLabel l) /\
    exists_label String.eqb (fst (insert_label String.eqb T l)) l = Some (snd (insert_label String.eqb T l)).
  Proof.
    intros T l [cs0 HG]. split.
    - exists [NLabel l], [TLabel l]. split; [reflexivity|]. split; [repeat constructor|]. intros c. cbn. split; [intros [H|[]]; auto|auto].
    - unfold insert_label, exists_label, ts_exists. destruct (ts_insert String.eqb (t_labels T) l) as [ls [b i]] eqn:E.
      destruct (ts_insert_spec string String.eqb String.eqb_eq _ _ _ _ _ E (ti_nd _ _ _ _ _ _ HG)) as (N' & Hn & _). cbn. apply (tr_index_nth string String.eqb String.eqb_eq); auto.
  Qed.
  Lemma eff_state : forall T l, good T -> eff T (fst (insert_state String.eqb T l)) (fun c => c = NState l) /\
    exists_state String.eqb (fst (insert_state String.eqb T l)) l = Some (snd (insert_state String.eqb T l)).
  Proof.
    intros T l [cs0 HG]. split.
    - exists [NState l], [TState l]. split; [reflexivity|]. split; [repeat constructor|]. intros c. cbn. split; [intros [H|[]]; auto|auto].
    - unfold insert_state, exists_state, ts_exists. destruct (ts_insert String.eqb (t_states T) l) as [ls [b i]] eqn:E.
      destruct (ts_insert_spec string String.eqb String.eqb_eq _ _ _ _ _ E (ti_snd _ _ _ _ _ _ HG)) as (N' & Hn & _). cbn. apply (tr_index_nth string String.eqb String.eqb_eq); auto.
  Qed.

  (** * Rule objects *)
  Definition prule : Type := option sref * option dop * option (list Z).
  Definition wt (j : json) := weight_of (cf_w cf) j.
  (** Reading the members of a rule from left to right. *)
  Definition pstep (p : prule) (e : string * json) : option prule :=
    let '(t, o, w) := p in
    let opm (x : option dop) := match o with Some _ => None | None => d <- x ;; Some (t, Some d, w) end in
    if String.eqb (fst e) "to" then match t with Some _ => None | None => x <- to_of (cf_names cf) (snd e) ;; Some (Some x, o, w) end
    else if String.eqb (fst e) "pop" then opm (match snd e with JStr s => if cf_asserts cf && negb (String.eqb s "") then None else Some DPop | _ => None end)
    else if String.eqb (fst e) "swap" then opm (match snd e with JStr s => Some (DSwap s) | _ => None end)
    else if String.eqb (fst e) "push" then opm (match snd e with JStr s => Some (DPush s) | _ => None end)
    else if expect_weight cf && String.eqb (fst e) "weight" then match w with Some _ => None | None => x <- wt (snd e) ;; Some (t, o, Some x) end
    else None.
  Definition need_of (p : prule) : list nat :=
    let '(t, o, w) := p in
    ((match t with None => [1] | _ => [] end) ++ (match o with None => [2] | _ => [] end) ++
     (if expect_weight cf then match w with None => [3] | _ => [] end else []))%list.
  Definition rmatch (pre : string) (T : tp) (r : crule) (p : prule) : Prop :=
    let '(t, o, w) := p in
    (match t with Some x => resolves T x (cr_to r) | None => True end) /\
    (match o with Some x => cr_op r = fst (cop pre x) /\ find_labelid String.eqb (cf_no_opl cf) T (fst (cop pre x)) (snd (cop pre x)) = Some (cr_opl r) | None => True end) /\
    (match w with Some x => cr_w r = x | None => cr_w r = cr_w (crule0 cf) end).
  Definition prcalls (pre : string) (p : prule) (c : ncall) : Prop :=
    let '(t, o, _) := p in
    match c with
    | NLabel l => exists x, o = Some x /\ In l (op_labels pre x)
    | NState s => cf_names cf = true /\ t = Some (SName s)
    | NRule _ _ _ _ _ => False
    end.
  Definition rinv (pre : string) (T0 T : tp) (r : crule) (p : prule) : Prop := good T0 /\ eff T0 T (prcalls pre p) /\ rmatch pre T r p.
  Definition wc_ok (pre : string) (wc : bool) : Prop := wc = String.eqb pre "*".

  Lemma rmatch_mono : forall pre T T' r p, tleq T T' -> rmatch pre T r p -> rmatch pre T' r p.
  Proof.
    intros pre T T' r [[t o] w] HL (H1 & H2 & H3). split; [|split; auto].
    - destruct t; auto. eapply resolves_mono; eauto.
    - destruct o as [x|]; auto. destruct H2 as [H2 H4]. split; auto. eapply (tle_find string String.eqb string); eauto. apply String.eqb_eq.
  Qed.

  (** The numbers of a vector weight. *)
  Lemma weight_numbers : forall sg lo hi l, cf_w cf = WVec sg lo hi -> no_arrays l -> forall s i T from pre wc r,
    match omap (num_in sg lo hi) l with
    | Some ws => run step (flat_map events l) (mk_ph (mk_sb ((x_weight_array, CArr i) :: s) k_weight) T from pre wc r) =
        Some (Go (mk_ph (mk_sb ((x_weight_array, CArr (i + length l)) :: s) k_weight) T from pre wc (mk_crule (cr_to r) (cr_op r) (cr_opl r) (cr_w r ++ ws)%list)))
    | None => run step (flat_map events l) (mk_ph (mk_sb ((x_weight_array, CArr i) :: s) k_weight) T from pre wc r) = Some Fail
    end.
  Proof.
    intros sg lo hi l HW. induction l as [|j l IH]; intros HN s i T from pre wc r.
    - cbn. rewrite Nat.add_0_r, app_nil_r. destruct r; auto.
    - inversion_clear HN as [|? ? Hj HN']. cbn [flat_map]. rewrite run_app.
      destruct j as [|b|z| |v|a|m]; try (cbn [omap num_in obind events run ph_step ph_other p_sb sb_key]; reflexivity); try (exfalso; apply Hj; exact I).
      + cbn [omap num_in events run].
        assert (E : match (if in_range sg lo hi z then Some z else None) with
                    | Some z0 => step (mk_ph (mk_sb ((x_weight_array, CArr i) :: s) k_weight) T from pre wc r) (if (z <? 0)%Z then EInt z else EUns z) =
                        Some (Go (mk_ph (mk_sb ((x_weight_array, CArr (S i)) :: s) k_weight) T from pre wc (mk_crule (cr_to r) (cr_op r) (cr_opl r) (cr_w r ++ [z])%list)))
                    | None => step (mk_ph (mk_sb ((x_weight_array, CArr i) :: s) k_weight) T from pre wc r) (if (z <? 0)%Z then EInt z else EUns z) = Some Fail end).
        { unfold in_range. destruct (z <? 0)%Z eqn:E0; cbn [ph_step].
          - unfold ph_integer. rewrite HW. cbn [in_weight_array p_sb cur_type sb_stack]. assert (E0' : (0 <=? z)%Z = false) by (apply Z.leb_gt; apply Z.ltb_lt in E0; lia). rewrite E0'.
            destruct sg; cbn [orb andb]; [|destruct (z <? hi)%Z; cbn; reflexivity].
            rewrite (Z.leb_antisym z hi), (Z.leb_antisym lo z). destruct (z <? hi)%Z; cbn [negb andb]; [|reflexivity]. destruct (lo <? z)%Z; cbn [negb andb]; reflexivity.
          - unfold ph_unsigned. rewrite HW. cbn [in_weight_array p_sb cur_type sb_stack]. assert (E0' : (0 <=? z)%Z = true) by (apply Z.leb_le; apply Z.ltb_ge in E0; lia). rewrite E0'.
            rewrite (Z.leb_antisym z hi). cbn [orb]. rewrite andb_true_r. destruct (z <? hi)%Z; cbn [negb andb]; reflexivity. }
        destruct (in_range sg lo hi z); cbn beta iota in E; cbn [obind]; rewrite E; auto.
        specialize (IH HN' s (S i) T from pre wc (mk_crule (cr_to r) (cr_op r) (cr_opl r) (cr_w r ++ [z])%list)).
        destruct (omap (num_in sg lo hi) l) as [ws|]; cbn [obind]; rewrite IH; auto. cbn [cr_to cr_op cr_opl cr_w length]. rewrite <- app_assoc. cbn. rewrite <- plus_n_Sm. auto.
  Qed.

  Lemma weight_value : forall j s T from pre wc r, cr_w r = cr_w (crule0 cf) -> expect_weight cf = true ->
    (match cf_w cf with WVec _ _ _ => exists l, j = JArr l /\ no_arrays l | _ => True end) ->
    match wt j with
    | Some w => forall need, run step (events j) (mk_ph (mk_sb ((x_rule, CObj need) :: s) k_weight) T from pre wc r) =
        Some (Go (mk_ph (mk_sb ((x_rule, CObj need) :: s) k_none) T from pre wc (mk_crule (cr_to r) (cr_op r) (cr_opl r) w)))
    | None => forall need, run step (events j) (mk_ph (mk_sb ((x_rule, CObj need) :: s) k_weight) T from pre wc r) = Some Fail
    end.
  Proof.
    intros j s T from pre wc r Hr HE HJ. unfold wt, weight_of. unfold expect_weight in HE. destruct (cf_w cf) as [|sg lo hi|sg lo hi] eqn:HW; [discriminate| |].
    - destruct j as [|b|z| |v|a|m]; cbn [num_in obind]; intros; try (cbn; rewrite ?HW; reflexivity).
      unfold in_range. cbn [events run]. destruct (z <? 0)%Z eqn:E0; cbn [ph_step].
      + unfold ph_integer. rewrite HW. cbn [p_sb sb_key]. assert (E0' : (0 <=? z)%Z = false) by (apply Z.leb_gt; apply Z.ltb_lt in E0; lia). rewrite E0'.
        rewrite (Z.leb_antisym z hi), (Z.leb_antisym lo z). destruct sg; cbn [orb andb]; [|destruct (z <? hi)%Z; cbn; intros; reflexivity].
        destruct (z <? hi)%Z; cbn [negb andb]; [|cbn; intros; reflexivity]. destruct (lo <? z)%Z; cbn [negb andb]; cbn; intros; reflexivity.
      + unfold ph_unsigned. rewrite HW. cbn [p_sb sb_key]. assert (E0' : (0 <=? z)%Z = true) by (apply Z.leb_le; apply Z.ltb_ge in E0; lia). rewrite E0'.
        rewrite (Z.leb_antisym z hi). cbn [orb]. rewrite andb_true_r. destruct (z <? hi)%Z; cbn [negb andb]; cbn; intros; reflexivity.
    - destruct HJ as (l & -> & HN). cbn [events]. unfold crule0 in Hr. rewrite HW in Hr. cbn [cr_w] in Hr.
      assert (A : forall need, run step (EStartArr :: flat_map events l ++ [EEndArr]) (mk_ph (mk_sb ((x_rule, CObj need) :: s) k_weight) T from pre wc r) =
        match run step (flat_map events l) (mk_ph (mk_sb ((x_weight_array, CArr 0) :: (x_rule, CObj need) :: s) k_weight) T from pre wc r) with Some (Go h) => run step [EEndArr] h | x => x end).
      { intros need. cbn [run ph_step]. unfold ph_start_array. rewrite HW. cbn [no_context p_sb sb_stack sb_key ph_push set_sb push_context p_pda p_from p_pre p_wc p_rule]. apply run_app. }
      pose proof (fun need => weight_numbers sg lo hi l HW HN ((x_rule, CObj need) :: s) 0 T from pre wc r) as B.
      destruct (omap (num_in sg lo hi) l) as [ws|]; intros need; rewrite A, B; auto. rewrite Hr. cbn. reflexivity.
  Qed.

  Definition bad {A} (x : option (hres A)) : Prop := x = Some Fail \/ (cf_asserts cf = true /\ x = None).

  Lemma to_run : forall j T, good T ->
    match to_of (cf_names cf) j with
    | Some x => exists T' i, eff T T' (fun c => exists n, c = NState n /\ x = SName n /\ cf_names cf = true) /\ resolves T' x i /\
        forall need s from pre wc r, run step (events j) (mk_ph (mk_sb ((x_rule, CObj need) :: s) k_to) T from pre wc r) =
          Some (Go (mk_ph (mk_sb ((x_rule, CObj need) :: s) k_none) T' from pre wc (mk_crule i (cr_op r) (cr_opl r) (cr_w r))))
    | None => forall need s from pre wc r, run step (events j) (mk_ph (mk_sb ((x_rule, CObj need) :: s) k_to) T from pre wc r) = Some Fail
    end.
  Proof.
    intros j T HG. destruct j as [|b|z| |v|a|m]; cbn [to_of]; try (intros; reflexivity).
    - destruct (cf_names cf) eqn:EN.
      + intros. cbn [events run]. destruct (z <? 0)%Z; cbn [ph_step].
        * unfold ph_integer. cbn. destruct (cf_w cf) as [|sg lo hi|[|] lo hi]; reflexivity.
        * unfold ph_unsigned. cbn. rewrite EN. destruct (cf_w cf) as [|sg lo hi|sg lo hi]; reflexivity.
      + destruct (z <? 0)%Z eqn:E0.
        * intros. cbn [events run]. rewrite E0. cbn [ph_step]. unfold ph_integer. cbn. destruct (cf_w cf) as [|sg lo hi|[|] lo hi]; reflexivity.
        * exists T, (Z.to_nat z). split; [apply eff_refl; intros c (n & _ & H & _); discriminate|]. split; [cbn; auto|]. intros. cbn [events run]. rewrite E0. cbn [ph_step].
          unfold ph_unsigned. cbn. rewrite EN. destruct (cf_w cf) as [|sg lo hi|sg lo hi]; reflexivity.
    - destruct (cf_names cf) eqn:EN.
      + destruct (eff_state T v HG) as [H1 H2]. exists (fst (insert_state String.eqb T v)), (snd (insert_state String.eqb T v)). split; [|split].
        * eapply eff_iff; [exact H1|]. intros c. split; [intros ->; exists v; auto|intros (n & -> & E & _); congruence].
        * cbn. auto.
        * intros. cbn [events run ph_step]. unfold ph_string. cbn [no_context p_sb sb_stack sb_key p_pda]. rewrite EN. destruct (insert_state String.eqb T v). reflexivity.
      + intros. cbn [events run ph_step]. unfold ph_string. cbn [no_context p_sb sb_stack sb_key p_pda]. rewrite EN. reflexivity.
  Qed.

  Inductive okey := o_pop | o_swap | o_push.
  Definition okey_key (k : okey) : pkey := match k with o_pop => k_pop | o_swap => k_swap | o_push => k_push end.
  Definition oval (k : okey) (j : json) : option dop :=
    match j with
    | JStr s => match k with o_pop => if cf_asserts cf && negb (String.eqb s "") then None else Some DPop | o_swap => Some (DSwap s) | o_push => Some (DPush s) end
    | _ => None
    end.
  Lemma op_run : forall k j T pre, good T ->
    match oval k j with
    | Some d => exists T' lid, eff T T' (fun c => exists l, c = NLabel l /\ In l (op_labels pre d)) /\
        find_labelid String.eqb (cf_no_opl cf) T' (fst (cop pre d)) (snd (cop pre d)) = Some lid /\
        forall need s from ids r, run step (events j) (mk_ph (mk_sb ((x_rule, CObj need) :: s) (okey_key k)) T from ids (String.eqb pre "*") r) =
          Some (Go (mk_ph (mk_sb ((x_rule, CObj need) :: s) k_none) T' from ids (String.eqb pre "*") (mk_crule (cr_to r) (fst (cop pre d)) lid (cr_w r))))
    | None => forall need s from ids r, bad (run step (events j) (mk_ph (mk_sb ((x_rule, CObj need) :: s) (okey_key k)) T from ids (String.eqb pre "*") r))
    end.
  Proof.
    intros k j T pre HG. destruct j as [|b|z| |v|a|m]; cbn [oval]; try (intros; left; destruct k; reflexivity).
    - intros. left. cbn [events run]. destruct (z <? 0)%Z; cbn [ph_step].
      + unfold ph_integer. destruct k; cbn; destruct (cf_w cf) as [|sg lo hi|[|] lo hi]; reflexivity.
      + unfold ph_unsigned. destruct k; cbn; destruct (cf_w cf) as [|sg lo hi|sg lo hi]; reflexivity.
    - assert (HL : exists T' lid, eff T T' (fun c => exists l, c = NLabel l /\ In l [v]) /\ insert_label String.eqb T v = (T', lid) /\ exists_label String.eqb T' v = Some lid).
      { destruct (eff_label T v HG) as [H1 H2]. destruct (insert_label String.eqb T v) as [T' lid] eqn:E. exists T', lid. split; auto. eapply eff_iff; [exact H1|].
        intros c. cbn. split; [intros ->; exists v; auto|intros (l & -> & [-> |[]]); auto]. }
      destruct HL as (T' & lid & H1 & H2 & H3). destruct k.
      + destruct (cf_asserts cf && negb (String.eqb v "")) eqn:EA.
        * intros. right. apply andb_true_iff in EA. destruct EA as [EA EB]. split; auto. cbn [events run ph_step okey_key]. unfold ph_string. cbn [no_context p_sb sb_stack sb_key]. rewrite EA, EB. reflexivity.
        * exists T, (cf_no_opl cf). split; [apply eff_refl; intros c (l & _ & [])|]. split; [reflexivity|]. intros. cbn [events run ph_step okey_key]. unfold ph_string. cbn [no_context p_sb sb_stack sb_key]. rewrite EA. reflexivity.
      + cbn [op_labels cop]. destruct (String.eqb pre "*" && String.eqb v "*") eqn:EW.
        * exists T, (cf_no_opl cf). split; [apply eff_refl; intros c (l & _ & [])|]. split; [reflexivity|]. intros. cbn [events run ph_step okey_key]. unfold ph_string. cbn [no_context p_sb sb_stack sb_key p_wc]. rewrite EW. reflexivity.
        * exists T', lid. split; auto. split; auto. intros. cbn [events run ph_step okey_key]. unfold ph_string. cbn [no_context p_sb sb_stack sb_key p_wc p_pda]. rewrite EW, H2. reflexivity.
      + exists T', lid. split; auto. split; auto. intros. cbn [events run ph_step okey_key]. unfold ph_string. cbn [no_context p_sb sb_stack sb_key p_wc p_pda]. rewrite H2. reflexivity.
  Qed.

  Lemma key_run : forall flag kk p k s T from ids wc r key,
    ph_key cf (mk_ph (mk_sb ((x_rule, CObj (need_of p)) :: s) k) T from ids wc r) key = ph_handle flag kk (mk_ph (mk_sb ((x_rule, CObj (need_of p)) :: s) k) T from ids wc r) ->
    run step [EKey key] (mk_ph (mk_sb ((x_rule, CObj (need_of p)) :: s) k) T from ids wc r) =
      if memb flag (need_of p) then Some (Go (mk_ph (mk_sb ((x_rule, CObj (filter (fun f => negb (Nat.eqb f flag)) (need_of p))) :: s) kk) T from ids wc r)) else Some Fail.
  Proof. intros flag kk p k s T from ids wc r key H. cbn [run ph_step]. rewrite H. unfold ph_handle, handle_key. cbn [sb_stack p_sb]. destruct (memb flag (need_of p)); reflexivity. Qed.

  Lemma member_run : forall pre T0 T r p e, rinv pre T0 T r p ->
    (match cf_w cf with WVec _ _ _ => fst e = "weight" -> exists l, snd e = JArr l /\ no_arrays l | _ => True end) ->
    match pstep p e with
    | Some p' => exists T' r', rinv pre T0 T' r' p' /\ forall s k from ids,
        run step (EKey (fst e) :: events (snd e)) (mk_ph (mk_sb ((x_rule, CObj (need_of p)) :: s) k) T from ids (String.eqb pre "*") r) =
          Some (Go (mk_ph (mk_sb ((x_rule, CObj (need_of p')) :: s) k_none) T' from ids (String.eqb pre "*") r'))
    | None => forall s k from ids, bad (run step (EKey (fst e) :: events (snd e)) (mk_ph (mk_sb ((x_rule, CObj (need_of p)) :: s) k) T from ids (String.eqb pre "*") r))
    end.
  Proof.
    intros pre T0 T r [[t o] w] [key j] (HG0 & HE & HM) HW. cbn [fst snd] in *. destruct (eff_good _ _ _ HG0 HE) as [HG _].
    assert (RK : forall s k from ids, run step (EKey key :: events j) (mk_ph (mk_sb ((x_rule, CObj (need_of (t, o, w))) :: s) k) T from ids (String.eqb pre "*") r) =
      match run step [EKey key] (mk_ph (mk_sb ((x_rule, CObj (need_of (t, o, w))) :: s) k) T from ids (String.eqb pre "*") r) with Some (Go h) => run step (events j) h | x => x end).
    { intros. rewrite <- (run_app _ step [EKey key]). reflexivity. }
    unfold pstep. cbn [fst snd].
    assert (OP : forall ok d, (forall s k from ids, run step [EKey key] (mk_ph (mk_sb ((x_rule, CObj (need_of (t, o, w))) :: s) k) T from ids (String.eqb pre "*") r) =
        if memb 2 (need_of (t, o, w)) then Some (Go (mk_ph (mk_sb ((x_rule, CObj (filter (fun f => negb (Nat.eqb f 2)) (need_of (t, o, w)))) :: s) (okey_key ok)) T from ids (String.eqb pre "*") r)) else Some Fail) ->
      d = oval ok j ->
      match (match o with Some _ => None | None => d0 <- d ;; Some (t, Some d0, w) end) with
      | Some p' => exists T' r', rinv pre T0 T' r' p' /\ forall s k from ids,
          run step (EKey key :: events j) (mk_ph (mk_sb ((x_rule, CObj (need_of (t, o, w))) :: s) k) T from ids (String.eqb pre "*") r) =
            Some (Go (mk_ph (mk_sb ((x_rule, CObj (need_of p')) :: s) k_none) T' from ids (String.eqb pre "*") r'))
      | None => forall s k from ids, bad (run step (EKey key :: events j) (mk_ph (mk_sb ((x_rule, CObj (need_of (t, o, w))) :: s) k) T from ids (String.eqb pre "*") r))
      end).
    { intros ok d HK ->. destruct o as [o|].
      - intros. left. rewrite RK, HK. replace (memb 2 (need_of (t, Some o, w))) with false by (unfold need_of; destruct t, (expect_weight cf), w; reflexivity). reflexivity.
      - assert (M : memb 2 (need_of (t, None, w)) = true) by (unfold need_of; destruct t, (expect_weight cf), w; reflexivity).
        assert (N : forall d, filter (fun f => negb (Nat.eqb f 2)) (need_of (t, None, w)) = need_of (t, Some d, w)) by (intros; unfold need_of; destruct t, (expect_weight cf), w; reflexivity).
        pose proof (op_run ok j T pre HG) as B. destruct (oval ok j) as [d|]; cbn [obind].
        + destruct B as (T' & lid & B1 & B2 & B3). exists T', (mk_crule (cr_to r) (fst (cop pre d)) lid (cr_w r)). split.
          * split; auto. split.
            -- eapply eff_iff; [eapply eff_trans; [exact HG0|exact HE|exact B1]|]. intros c. unfold prcalls. destruct c as [l|s'|f t' o' pre' w']; cbn.
               ++ split; [intros [(x & X & _)|(l0 & X & Y)]; [discriminate|injection X as ->; eauto]|intros (x & X & Y); injection X as <-; right; eauto].
               ++ split; [intros [X|(l0 & X & _)]; auto; discriminate|auto].
               ++ split; [intros [X|(l0 & X & _)]; auto; discriminate|auto].
            -- destruct (eff_good _ _ _ HG B1) as [_ HL]. apply (rmatch_mono _ _ _ _ _ HL) in HM. destruct HM as (M1 & _ & M3). split; auto.
          * intros. rewrite RK, HK, M, (N d). apply B3.
        + intros. rewrite RK, HK, M, (N DPop). apply B. }
    destruct (String.eqb key "to") eqn:E1.
    { apply String.eqb_eq in E1. subst key.
      assert (HK : forall s k from ids, run step [EKey "to"] (mk_ph (mk_sb ((x_rule, CObj (need_of (t, o, w))) :: s) k) T from ids (String.eqb pre "*") r) =
        if memb 1 (need_of (t, o, w)) then Some (Go (mk_ph (mk_sb ((x_rule, CObj (filter (fun f => negb (Nat.eqb f 1)) (need_of (t, o, w)))) :: s) k_to) T from ids (String.eqb pre "*") r)) else Some Fail)
        by (intros; apply key_run; reflexivity).
      destruct t as [t|].
      - intros. left. rewrite RK, HK. replace (memb 1 (need_of (Some t, o, w))) with false by (unfold need_of; destruct o, (expect_weight cf), w; reflexivity). reflexivity.
      - assert (M : memb 1 (need_of (None, o, w)) = true) by (unfold need_of; destruct o, (expect_weight cf), w; reflexivity).
        assert (N : forall d, filter (fun f => negb (Nat.eqb f 1)) (need_of (None, o, w)) = need_of (Some d, o, w)) by (intros; unfold need_of; destruct o, (expect_weight cf), w; reflexivity).
        pose proof (to_run j T HG) as B. destruct (to_of (cf_names cf) j) as [x|]; cbn [obind].
        + destruct B as (T' & i & B1 & B2 & B3). exists T', (mk_crule i (cr_op r) (cr_opl r) (cr_w r)). split.
          * split; auto. split.
            -- eapply eff_iff; [eapply eff_trans; [exact HG0|exact HE|exact B1]|]. intros c. unfold prcalls. destruct c as [l|s'|f t' o' pre' w']; cbn.
               ++ split; [intros [X|(l0 & X & _)]; auto; discriminate|auto].
               ++ split; [intros [(_ & X)|(l0 & X & Y & Z)]; [discriminate|injection X as ->; subst; auto]|intros (X & Y); right; exists s'; split; auto; split; auto; congruence].
               ++ split; [intros [X|(l0 & X & _)]; auto; discriminate|auto].
            -- destruct (eff_good _ _ _ HG B1) as [_ HL]. apply (rmatch_mono _ _ _ _ _ HL) in HM. destruct HM as (_ & M2 & M3). split; auto.
          * intros. rewrite RK, HK, M, (N x). apply B3.
        + intros. left. rewrite RK, HK, M, (N (SNum 0)). apply B. }
    destruct (String.eqb key "pop") eqn:E2.
    { apply String.eqb_eq in E2. subst key. apply (OP o_pop); [intros; apply key_run; reflexivity|]. destruct j; reflexivity. }
    destruct (String.eqb key "swap") eqn:E3.
    { apply String.eqb_eq in E3. subst key. apply (OP o_swap); [intros; apply key_run; reflexivity|]. destruct j; reflexivity. }
    destruct (String.eqb key "push") eqn:E4.
    { apply String.eqb_eq in E4. subst key. apply (OP o_push); [intros; apply key_run; reflexivity|]. destruct j; reflexivity. }
    destruct (expect_weight cf && String.eqb key "weight") eqn:E5.
    - apply andb_true_iff in E5. destruct E5 as [EX E5]. apply String.eqb_eq in E5. subst key.
      assert (HK : forall s k from ids, run step [EKey "weight"] (mk_ph (mk_sb ((x_rule, CObj (need_of (t, o, w))) :: s) k) T from ids (String.eqb pre "*") r) =
        if memb 3 (need_of (t, o, w)) then Some (Go (mk_ph (mk_sb ((x_rule, CObj (filter (fun f => negb (Nat.eqb f 3)) (need_of (t, o, w)))) :: s) k_weight) T from ids (String.eqb pre "*") r)) else Some Fail).
      { intros. apply key_run. cbn. rewrite EX. reflexivity. }
      destruct w as [w|].
      + intros. left. rewrite RK, HK. replace (memb 3 (need_of (t, o, Some w))) with false by (unfold need_of; destruct t, o, (expect_weight cf); reflexivity). reflexivity.
      + assert (M : memb 3 (need_of (t, o, None)) = true) by (unfold need_of; rewrite EX; destruct t, o; reflexivity).
        assert (N : forall d, filter (fun f => negb (Nat.eqb f 3)) (need_of (t, o, None)) = need_of (t, o, Some d)) by (intros; unfold need_of; rewrite EX; destruct t, o; reflexivity).
        pose proof (fun s from ids => weight_value j s T from ids (String.eqb pre "*") r) as B. destruct HM as (M1 & M2 & M3).
        assert (HJ : match cf_w cf with WVec _ _ _ => exists l, j = JArr l /\ no_arrays l | _ => True end) by (destruct (cf_w cf); auto).
        destruct (wt j) as [x|]; cbn [obind].
        * exists T, (mk_crule (cr_to r) (cr_op r) (cr_opl r) x). split.
          -- split; auto. split; [exact HE|]. split; auto.
          -- intros. rewrite RK, HK, M, (N x). apply B; auto.
        * intros. left. rewrite RK, HK, M, (N []). apply B; auto.
    - intros. left. rewrite RK. cbn [run ph_step]. unfold ph_key. cbn [no_context p_sb sb_stack cur_type obind]. rewrite E1, E2, E3, E4, E5. reflexivity.
  Qed.

  Definition wok (m : list (string * json)) : Prop := regular_rule (cf_w cf) m.
  Lemma wok_cons : forall e m, wok (e :: m) ->
    (match cf_w cf with WVec _ _ _ => fst e = "weight" -> exists l, snd e = JArr l /\ no_arrays l | _ => True end) /\ wok m.
  Proof.
    intros e m H. unfold wok, regular_rule in *. destruct (cf_w cf); auto. unfold member in *. cbn [filter] in H. destruct (String.eqb (fst e) "weight") eqn:E.
    - inversion_clear H. split; auto.
    - split; auto. intros X. rewrite X in E. discriminate.
  Qed.
  Lemma members_run : forall pre T0 m T r p, rinv pre T0 T r p -> wok m ->
    match ofold pstep m p with
    | Some p' => exists T' r', rinv pre T0 T' r' p' /\ forall s k from ids, exists k',
        run step (flat_map (fun e => EKey (fst e) :: events (snd e)) m) (mk_ph (mk_sb ((x_rule, CObj (need_of p)) :: s) k) T from ids (String.eqb pre "*") r) =
          Some (Go (mk_ph (mk_sb ((x_rule, CObj (need_of p')) :: s) k') T' from ids (String.eqb pre "*") r')) /\ (m <> [] -> k' = k_none)
    | None => forall s k from ids, bad (run step (flat_map (fun e => EKey (fst e) :: events (snd e)) m) (mk_ph (mk_sb ((x_rule, CObj (need_of p)) :: s) k) T from ids (String.eqb pre "*") r))
    end.
  Proof.
    intros pre T0 m. induction m as [|e m IH]; intros T r p HI HW.
    - cbn. exists T, r. split; auto. intros s k from ids. exists k. split; auto. congruence.
    - apply wok_cons in HW. destruct HW as [HW1 HW2]. cbn [ofold]. pose proof (member_run pre T0 T r p e HI HW1) as B. destruct (pstep p e) as [p1|]; cbn [obind].
      + destruct B as (T1 & r1 & HI1 & B1). specialize (IH T1 r1 p1 HI1 HW2). destruct (ofold pstep m p1) as [p'|].
        * destruct IH as (T' & r' & HI' & B2). exists T', r'. split; auto. intros s k from ids. cbn [flat_map]. rewrite run_app, B1.
          destruct (B2 s k_none from ids) as (k' & B3 & B4). exists k'. split; auto. intros _. destruct m; auto; [|apply B4; discriminate]. cbn in B3. injection B3 as _ X. auto.
        * intros s k from ids. cbn [flat_map]. rewrite run_app, B1. apply IH.
      + intros s k from ids. cbn [flat_map]. rewrite run_app. destruct (B s k from ids) as [X|[X Y]]; rewrite ?X, ?Y; [left|right]; auto.
  Qed.

  (** The reading from left to right agrees with the specification. *)
  Definition tspec (t : option sref) (js : list json) (t' : option sref) : Prop :=
    match t with
    | Some _ => js = [] /\ t' = t
    | None => match js with [] => t' = None | [j] => to_of (cf_names cf) j <> None /\ t' = to_of (cf_names cf) j | _ => False end
    end.
  Definition ospec (o : option dop) (ps ss us : list json) (o' : option dop) : Prop :=
    match o with
    | Some _ => ps = [] /\ ss = [] /\ us = [] /\ o' = o
    | None => match ps, ss, us with
              | [], [], [] => o' = None
              | [j], [], [] => oval o_pop j <> None /\ o' = oval o_pop j
              | [], [j], [] => oval o_swap j <> None /\ o' = oval o_swap j
              | [], [], [j] => oval o_push j <> None /\ o' = oval o_push j
              | _, _, _ => False
              end
    end.
  Definition wspec (w : option (list Z)) (js : list json) (w' : option (list Z)) : Prop :=
    match w with
    | Some _ => js = [] /\ w' = w
    | None => match js with [] => w' = None | [j] => wt j <> None /\ w' = wt j | _ => False end
    end.
  Definition wmem (m : list (string * json)) : list json := if expect_weight cf then member "weight" m else [].
  Lemma pstep_spec : forall m t o w t' o' w', ofold pstep m (t, o, w) = Some (t', o', w') <->
    tspec t (member "to" m) t' /\ ospec o (member "pop" m) (member "swap" m) (member "push" m) o' /\ wspec w (wmem m) w' /\
    length m = length (member "to" m) + length (member "pop" m) + length (member "swap" m) + length (member "push" m) + length (wmem m).
  Proof.
    induction m as [|[key j] m IH]; intros t o w t' o' w'.
    - unfold wmem. cbn. destruct (expect_weight cf); (split; [intros H; injection H as <- <- <-; destruct t, o, w; cbn; auto 10|]);
        destruct t, o, w; cbn; intros (H1 & H2 & H3 & _); repeat match goal with H : _ /\ _ |- _ => destruct H end; subst; auto.
    - assert (MC : forall k, member k ((key, j) :: m) = if String.eqb key k then j :: member k m else member k m) by (intros k; unfold member; cbn; destruct (String.eqb key k); auto).
      unfold wmem in *. cbn [ofold]. unfold pstep at 1. cbn [fst snd]. rewrite !MC. destruct (String.eqb key "to") eqn:E1.
      { apply String.eqb_eq in E1. subst key. change (String.eqb "to" "pop") with false. change (String.eqb "to" "swap") with false. change (String.eqb "to" "push") with false. change (String.eqb "to" "weight") with false. cbn iota.
        destruct t as [t|]; cbn [obind].
        - split; [discriminate|]. intros ((H & _) & _). discriminate.
        - destruct (to_of (cf_names cf) j) as [x|] eqn:ET; cbn [obind].
          + rewrite IH. unfold tspec at 1 2. rewrite ET. destruct (member "to" m) as [|y l]; cbn [length Nat.add].
            * split; intros (H1 & H2 & H3 & H4); repeat split; auto; try congruence; try lia; destruct H1; auto.
            * split; [intros ((H & _) & _); discriminate|]. intros (H & _). destruct H.
          + split; [discriminate|]. intros (H & _). unfold tspec in H. destruct (member "to" m); [|destruct H]. rewrite ET in H. destruct H. congruence. }
      assert (OP : forall ok d, d = oval ok j ->
        (match (match o with Some _ => None | None => d0 <- d ;; Some (t, Some d0, w) end) with Some p => ofold pstep m p | None => None end = Some (t', o', w') <->
         tspec t (member "to" m) t' /\
         ospec o (match ok with o_pop => j :: member "pop" m | _ => member "pop" m end) (match ok with o_swap => j :: member "swap" m | _ => member "swap" m end)
                 (match ok with o_push => j :: member "push" m | _ => member "push" m end) o' /\
         wspec w (if expect_weight cf then member "weight" m else []) w' /\
         S (length m) = length (member "to" m) + length (match ok with o_pop => j :: member "pop" m | _ => member "pop" m end) + length (match ok with o_swap => j :: member "swap" m | _ => member "swap" m end)
           + length (match ok with o_push => j :: member "push" m | _ => member "push" m end) + length (if expect_weight cf then member "weight" m else []))).
      { intros ok d ->. destruct o as [o|].
        - split; [discriminate|]. intros (_ & (H1 & H2 & H3 & _) & _). destruct ok; discriminate.
        - destruct (oval ok j) as [x|] eqn:EO; cbn [obind].
          + rewrite IH. assert (OE : ospec (Some x) (member "pop" m) (member "swap" m) (member "push" m) o' <->
              ospec None (match ok with o_pop => j :: member "pop" m | _ => member "pop" m end) (match ok with o_swap => j :: member "swap" m | _ => member "swap" m end)
                 (match ok with o_push => j :: member "push" m | _ => member "push" m end) o').
            { destruct ok; cbn [ospec]; destruct (member "pop" m) as [|a1 [|]], (member "swap" m) as [|a2 [|]], (member "push" m) as [|a3 [|]]; rewrite ?EO;
                split; intros H; repeat match goal with H : _ /\ _ |- _ => destruct H end; try discriminate; try tauto; repeat split; auto; congruence. }
            rewrite OE. destruct ok; cbn [length]; split; intros (H1 & H2 & H3 & H4); repeat split; auto; lia.
          + split; [discriminate|]. intros (_ & H & _). exfalso. destruct ok; cbn [ospec] in H; destruct (member "pop" m) as [|a1 [|]], (member "swap" m) as [|a2 [|]], (member "push" m) as [|a3 [|]];
              try exact H; rewrite ?EO in H; destruct H; congruence. }
      destruct (String.eqb key "pop") eqn:E2.
      { apply String.eqb_eq in E2. subst key. change (String.eqb "pop" "swap") with false. change (String.eqb "pop" "push") with false. change (String.eqb "pop" "weight") with false. cbn iota. cbn [length].
        apply (OP o_pop). destruct j; reflexivity. }
      destruct (String.eqb key "swap") eqn:E3.
      { apply String.eqb_eq in E3. subst key. change (String.eqb "swap" "push") with false. change (String.eqb "swap" "weight") with false. cbn iota. cbn [length].
        apply (OP o_swap). destruct j; reflexivity. }
      destruct (String.eqb key "push") eqn:E4.
      { apply String.eqb_eq in E4. subst key. change (String.eqb "push" "weight") with false. cbn iota. cbn [length].
        apply (OP o_push). destruct j; reflexivity. }
      destruct (expect_weight cf) eqn:EX; cbn [andb]; [destruct (String.eqb key "weight") eqn:E5|].
      + destruct w as [w|]; cbn [obind].
        * split; [discriminate|]. intros (_ & _ & (H & _) & _). discriminate.
        * destruct (wt j) as [x|] eqn:ET; cbn [obind].
          -- rewrite IH. unfold wspec at 1 2. rewrite ET. destruct (member "weight" m) as [|y l]; cbn [length].
             ++ split; intros (H1 & H2 & H3 & H4); repeat split; auto; try congruence; try lia; destruct H3; auto.
             ++ split; [intros (_ & _ & (H & _) & _); discriminate|]. intros (_ & _ & H & _). destruct H.
          -- split; [discriminate|]. intros (_ & _ & H & _). unfold wspec in H. destruct (member "weight" m); [|destruct H]. rewrite ET in H. destruct H. congruence.
      + cbn [obind]. split; [discriminate|]. intros (_ & _ & _ & H). exfalso. cbn [length] in H.
        assert (X : length (member "to" m) + length (member "pop" m) + length (member "swap" m) + length (member "push" m) + length (member "weight" m) <= length m).
        { clear. induction m as [|[k v] m IH]; [cbn; lia|]. unfold member in *. cbn [filter fst snd].
          destruct (String.eqb k "to") eqn:A1; [apply String.eqb_eq in A1; subst k; cbn; cbn in IH; lia|].
          destruct (String.eqb k "pop") eqn:A2; [apply String.eqb_eq in A2; subst k; cbn; cbn in IH; lia|].
          destruct (String.eqb k "swap") eqn:A3; [apply String.eqb_eq in A3; subst k; cbn; cbn in IH; lia|].
          destruct (String.eqb k "push") eqn:A4; [apply String.eqb_eq in A4; subst k; cbn; cbn in IH; lia|].
          destruct (String.eqb k "weight"); cbn [map length]; lia. }
        lia.
      + cbn [obind]. split; [discriminate|]. intros (_ & _ & _ & H). exfalso. cbn [length] in H.
        assert (X : length (member "to" m) + length (member "pop" m) + length (member "swap" m) + length (member "push" m) <= length m).
        { clear. induction m as [|[k v] m IH]; [cbn; lia|]. unfold member in *. cbn [filter fst snd].
          destruct (String.eqb k "to") eqn:A1; [apply String.eqb_eq in A1; subst k; cbn; cbn in IH; lia|].
          destruct (String.eqb k "pop") eqn:A2; [apply String.eqb_eq in A2; subst k; cbn; cbn in IH; lia|].
          destruct (String.eqb k "swap") eqn:A3; [apply String.eqb_eq in A3; subst k; cbn; cbn in IH; lia|].
          destruct (String.eqb k "push"); cbn [map length]; lia. }
        lia.
  Qed.
  Definition complete (p : prule) : option drule :=
    let '(t, o, w) := p in
    to <- t ;; x <- o ;; if expect_weight cf then ws <- w ;; Some (mk_drule to x ws) else Some (mk_drule to x []).
  Notation spec_rule := (rule_of (cf_names cf) (cf_w cf) (cf_asserts cf)).
  Lemma rule_of_steps : forall m, spec_rule m = (p <- ofold pstep m (None, None, None) ;; complete p).
  Proof.
    intros m. assert (HX : forall d, spec_rule m = Some d <-> (p <- ofold pstep m (None, None, None) ;; complete p) = Some d).
    { intros d. assert (HL : (p <- ofold pstep m (None, None, None) ;; complete p) = Some d <->
        exists w', ofold pstep m (None, None, None) = Some (Some (d_to d), Some (d_op d), w') /\ (if expect_weight cf then w' = Some (d_w d) else d_w d = [])).
      { destruct (ofold pstep m (None, None, None)) as [[[t o] w]|]; cbn [obind]; [|split; [discriminate|intros (w' & H & _); discriminate]].
        unfold complete. destruct t as [t|], o as [o|]; cbn [obind]; try (split; [discriminate|intros (w' & H & _); discriminate]).
        destruct (expect_weight cf).
        - destruct w as [w|]; cbn [obind].
          + split; [intros H; injection H as <-; exists (Some w); auto|]. intros (w' & H & X). injection H as -> -> <-. injection X as ->. destruct d; auto.
          + split; [discriminate|]. intros (w' & H & X). subst w'. discriminate.
        - split; [intros H; injection H as <-; exists w; auto|]. intros (w' & H & X). injection H as -> -> <-. destruct d; cbn in *; subst; auto. }
      rewrite HL. unfold rule_of.
      assert (HT : forall w', ofold pstep m (None, None, None) = Some (Some (d_to d), Some (d_op d), w') <->
        (match member "to" m with [j] => to_of (cf_names cf) j | _ => None end = Some (d_to d) /\
         match member "pop" m, member "swap" m, member "push" m with
          | [JStr s], [], [] => if cf_asserts cf && negb (String.eqb s "") then None else Some DPop
          | [], [JStr l], [] => Some (DSwap l)
          | [], [], [JStr l] => Some (DPush l)
          | _, _, _ => None
          end = Some (d_op d) /\ wspec None (wmem m) w' /\ length m = 2 + length (wmem m))).
      { intros w'. rewrite pstep_spec. unfold tspec, ospec, oval.
        destruct (member "to" m) as [|j1 [|u1 v1]], (member "pop" m) as [|j2 [|u2 v2]], (member "swap" m) as [|j3 [|u3 v3]], (member "push" m) as [|j4 [|u4 v4]];
          try (split; [intros (H1 & H2 & _)|intros (H1 & H2 & _)]; exfalso; first [discriminate|exact H1|exact H2|destruct H1; congruence|destruct H2; congruence|destruct j2; discriminate|destruct j3; discriminate|destruct j4; discriminate]);
          try (destruct j2; try (split; [intros (_ & (H & _) & _)|intros (_ & H & _)]; congruence));
          try (destruct j3; try (split; [intros (_ & (H & _) & _)|intros (_ & H & _)]; congruence));
          try (destruct j4; try (split; [intros (_ & (H & _) & _)|intros (_ & H & _)]; congruence));
          cbn [length Nat.add]; (split; [intros ((H1 & H2) & (H3 & H4) & H5 & H6); repeat split; auto|intros (H1 & H2 & H3 & H4); repeat split; auto; congruence]). }
      destruct (match member "to" m with [j] => to_of (cf_names cf) j | _ => None end) as [to|]; cbn [obind]; [|split; [discriminate|intros (w' & H & _); apply HT in H; destruct H; discriminate]].
      match goal with |- context [obind ?O _] => destruct O as [o|] eqn:EO end; cbn [obind]; [|split; [discriminate|intros (w' & H & _); apply HT in H; destruct H as (_ & H & _); discriminate]].
      unfold wmem, wspec, wt, expect_weight in *. destruct (cf_w cf) as [|sg lo hi|sg lo hi] eqn:EW.
      - destruct (Nat.eqb_spec (length m) 2) as [L|L].
        + split; [intros H; injection H as <-; exists None; split; auto; apply HT; auto|]. intros (w' & H & X). apply HT in H. destruct H as (H1 & H2 & _). injection H1 as ->. injection H2 as ->. destruct d; cbn in *; subst; auto.
        + split; [discriminate|]. intros (w' & H & X). apply HT in H. destruct H as (_ & _ & _ & H). cbn in H. lia.
      - destruct (member "weight" m) as [|j [|]]; cbn [obind]; try (split; [discriminate|intros (w' & H & X); apply HT in H; destruct H as (_ & _ & H & _); congruence]).
        + destruct (weight_of (WNum sg lo hi) j) as [w|]; cbn [obind]; [|split; [discriminate|intros (w' & H & X); apply HT in H; destruct H as (_ & _ & (H & _) & _); congruence]].
          destruct (Nat.eqb_spec (length m) 3) as [L|L].
          * split; [intros H; injection H as <-; exists (Some w); split; auto; apply HT; repeat split; auto; congruence|].
            intros (w' & H & X). apply HT in H. destruct H as (H1 & H2 & (_ & H3) & _). destruct d; cbn in *; congruence.
          * split; [discriminate|]. intros (w' & H & X). apply HT in H. destruct H as (_ & _ & _ & H). cbn in H. lia.
        + split; [discriminate|]. intros (w' & H & X). apply HT in H. destruct H as (_ & _ & H & _). destruct H.
      - destruct (member "weight" m) as [|j [|]]; cbn [obind]; try (split; [discriminate|intros (w' & H & X); apply HT in H; destruct H as (_ & _ & H & _); congruence]).
        + destruct (weight_of (WVec sg lo hi) j) as [w|]; cbn [obind]; [|split; [discriminate|intros (w' & H & X); apply HT in H; destruct H as (_ & _ & (H & _) & _); congruence]].
          destruct (Nat.eqb_spec (length m) 3) as [L|L].
          * split; [intros H; injection H as <-; exists (Some w); split; auto; apply HT; repeat split; auto; congruence|].
            intros (w' & H & X). apply HT in H. destruct H as (H1 & H2 & (_ & H3) & _). destruct d; cbn in *; congruence.
          * split; [discriminate|]. intros (w' & H & X). apply HT in H. destruct H as (_ & _ & _ & H). cbn in H. lia.
        + split; [discriminate|]. intros (w' & H & X). apply HT in H. destruct H as (_ & _ & H & _). destruct H. }
    destruct (spec_rule m) as [d|]; [symmetry; apply HX; auto|]. destruct (p <- ofold pstep m (None, None, None) ;; complete p) as [d|]; auto. apply HX. auto.
  Qed.

  (** * Rules, states and documents *)
  Definition rule_calls (f : sref) (pre : string) (d : drule) (c : ncall) : Prop :=
    match c with
    | NLabel l => In l (op_labels pre (d_op d))
    | NState s => cf_names cf = true /\ d_to d = SName s
    | NRule f' t o pre' w => f' = f /\ t = d_to d /\ o = d_op d /\ pre' = pre /\ w = d_w d
    end.
  Definition entry_calls (f : sref) (e : string * list drule) (c : ncall) : Prop :=
    (exists x, c = NLabel x /\ In x (pre_labels (fst e))) \/ exists d, In d (snd e) /\ rule_calls f (fst e) d c.
  Definition state_calls (f : sref) (ms : list (string * list drule)) (c : ncall) : Prop := exists e, In e ms /\ entry_calls f e c.
  Definition doc_calls (d : doc) (c : ncall) : Prop :=
    exists s, In s d /\ ((exists n, c = NState n /\ fst s = SName n) \/ state_calls (fst s) (snd s) c).
  Definition ready (T : tp) (f : sref) (pre : string) (from : nat) (ids : list nat) : Prop :=
    resolves T f from /\ encode_pre String.eqb T (pre_labels pre) = Some ids.
  Lemma ready_mono : forall T T' f pre from ids, tleq T T' -> ready T f pre from ids -> ready T' f pre from ids.
  Proof.
    intros T T' f pre from ids HL [H1 H2]. split; [eapply resolves_mono; eauto|]. unfold pre_labels in *. destruct (String.eqb pre "*"); auto. cbn in *.
    destruct (exists_label String.eqb T pre) as [i|] eqn:E; [|discriminate]. rewrite (tle_label string String.eqb string String.eqb_eq _ _ _ _ HL E). auto.
  Qed.
  Definition starts_rule (b : sbase pctx pkey) : Prop :=
    exists t v s, sb_stack b = (t, v) :: s /\ (t = x_rule_array \/ (t = x_state /\ sb_key b = k_from_label)).
  Definition bump (b : sbase pctx pkey) (k : pkey) : sbase pctx pkey := element_done k_none (mk_sb (sb_stack b) k).

  Lemma rule_run : forall m T f pre from ids, good T -> ready T f pre from ids -> wok m ->
    match spec_rule m with
    | Some d => exists T', eff T T' (rule_calls f pre d) /\ forall b, starts_rule b ->
        run step (events (JObj m)) (mk_ph b T from ids (String.eqb pre "*") (crule0 cf)) = Some (Go (mk_ph (bump b k_none) T' from ids (String.eqb pre "*") (crule0 cf)))
    | None => forall b, starts_rule b -> bad (run step (events (JObj m)) (mk_ph b T from ids (String.eqb pre "*") (crule0 cf)))
    end.
  Proof.
    intros m T f pre from ids HG HR HW. rewrite rule_of_steps.
    assert (HS : forall b, starts_rule b -> run step (events (JObj m)) (mk_ph b T from ids (String.eqb pre "*") (crule0 cf)) =
      match run step (flat_map (fun e => EKey (fst e) :: events (snd e)) m) (mk_ph (mk_sb ((x_rule, CObj (need_of (None, None, None))) :: sb_stack b) (sb_key b)) T from ids (String.eqb pre "*") (crule0 cf)) with
      | Some (Go h) => run step [EEndObj] h | x => x end).
    { intros b (t & v & s & E & H). cbn [events run ph_step]. unfold ph_start_object. cbn [no_context p_sb cur_type]. unfold no_context, cur_type. rewrite E. cbn [obind].
      assert (EQ : match t with x_state_array => ph_push (mk_ph b T from ids (String.eqb pre "*") (crule0 cf)) state_context | x_rule_array => ph_push (mk_ph b T from ids (String.eqb pre "*") (crule0 cf)) (rule_context cf)
        | _ => match sb_key b with k_pda => ph_push (mk_ph b T from ids (String.eqb pre "*") (crule0 cf)) pda_context | k_states => if cf_names cf then ph_push (mk_ph b T from ids (String.eqb pre "*") (crule0 cf)) states_object else Some Fail
           | k_state_name => ph_push (mk_ph b T from ids (String.eqb pre "*") (crule0 cf)) state_context | k_from_label => ph_push (mk_ph b T from ids (String.eqb pre "*") (crule0 cf)) (rule_context cf)
           | k_unknown => ph_push (mk_ph b T from ids (String.eqb pre "*") (crule0 cf)) unknown_context | _ => Some Fail end end = ph_push (mk_ph b T from ids (String.eqb pre "*") (crule0 cf)) (rule_context cf)).
      { destruct H as [-> |[-> H]]; auto. rewrite H. auto. }
      rewrite EQ. unfold ph_push, set_sb, push_context, rule_context. cbn [p_sb p_pda p_from p_pre p_wc p_rule]. rewrite run_app. unfold need_of. rewrite E. destruct (expect_weight cf); reflexivity. }
    assert (HI : rinv pre T T (crule0 cf) (None, None, None)).
    { split; auto. split; [apply eff_refl; intros c; destruct c; cbn; intros H; [destruct H as (x & X & _); discriminate|destruct H; discriminate|auto]|]. cbn. auto. }
    pose proof (members_run pre T m T (crule0 cf) (None, None, None) HI HW) as B.
    destruct (ofold pstep m (None, None, None)) as [[[t o] w]|] eqn:EF; cbn [obind]; [|intros b Hb; rewrite HS by auto; destruct (B (sb_stack b) (sb_key b) from ids) as [X|[X Y]]; rewrite ?X, ?Y; [left|right]; auto].
    destruct B as (T1 & r1 & (_ & HE1 & HM1) & B).
    assert (MISS : complete (t, o, w) = None -> forall b, starts_rule b -> bad (run step (events (JObj m)) (mk_ph b T from ids (String.eqb pre "*") (crule0 cf)))).
    { intros HC b Hb. left. rewrite HS by auto. destruct (B (sb_stack b) (sb_key b) from ids) as (k' & B1 & _). rewrite B1. cbn [run ph_step]. unfold ph_end_object. cbn [no_context p_sb sb_stack missing obind].
      assert (HN : need_of (t, o, w) <> []). { unfold complete, need_of in *. destruct t, o; cbn in *; try discriminate. destruct (expect_weight cf); [destruct w|]; cbn in *; discriminate. }
      destruct (need_of (t, o, w)); [congruence|reflexivity]. }
    destruct (complete (t, o, w)) as [d|] eqn:EC; [|auto].
    destruct t as [t|]; [|discriminate]. destruct o as [o|]; [|discriminate]. cbn [complete obind] in EC.
    assert (HD : d_to d = t /\ d_op d = o /\ need_of (Some t, Some o, w) = [] /\ wval cf (cr_w r1) = wval cf (d_w d)).
    { destruct HM1 as (_ & _ & M3). unfold need_of, expect_weight, wval, crule0 in *. destruct (cf_w cf) eqn:EW.
      - injection EC as <-. auto.
      - destruct w as [w|]; [|discriminate]. injection EC as <-. subst w. auto.
      - destruct w as [w|]; [|discriminate]. injection EC as <-. subst w. auto. }
    destruct HD as (D1 & D2 & D3 & D4). destruct HM1 as (M1 & (M2 & M2') & _). destruct (eff_good _ _ _ HG HE1) as [HG1 HL1]. destruct (ready_mono _ _ _ _ _ _ HL1 HR) as [R1 R2].
    set (T2 := mk_tpda (add_rule_impl (t_rules T1) from (mk_rule (cr_to r1) (cr_op r1) (cr_opl r1) (wval cf (cr_w r1))) (String.eqb pre "*") ids) (t_labels T1) (t_states T1)).
    assert (HE2 : eff T1 T2 (fun c => c = NRule f t o pre (d_w d))).
    { assert (HC : do_tcall String.eqb String.eqb (cf_no_opl cf) true T1 (TRule from (cr_to r1) (fst (cop pre o)) (snd (cop pre o)) (String.eqb pre "*") (pre_labels pre) (wval cf (d_w d))) = Some T2).
      { cbn [do_tcall]. unfold t_add_rule. rewrite M2', R2. cbn [obind]. unfold T2. rewrite D4, <- M2.
        assert (HS1 : is_sorted ids = true). { unfold pre_labels in R2. destruct (String.eqb pre "*"); cbn in R2; [injection R2 as <-; auto|]. destruct (exists_label String.eqb T1 pre); [|discriminate]. injection R2 as <-. auto. }
        rewrite HS1. cbn [negb]. rewrite andb_false_r. auto. }
      exists [NRule f t o pre (d_w d)], [TRule from (cr_to r1) (fst (cop pre o)) (snd (cop pre o)) (String.eqb pre "*") (pre_labels pre) (wval cf (d_w d))]. split; [|split].
      - unfold do_tcalls. cbn [ofold]. rewrite HC. auto.
      - constructor; [|constructor]. cbn [crel]. assert (HL2 : tleq T1 T2).
        { eapply dot_good with (cs := [TRule from (cr_to r1) (fst (cop pre o)) (snd (cop pre o)) (String.eqb pre "*") (pre_labels pre) (wval cf (d_w d))]); eauto. unfold do_tcalls. cbn [ofold]. rewrite HC. auto. }
        exists from, (cr_to r1). split; [eapply resolves_mono; eauto|]. split; [eapply resolves_mono; eauto|]. auto.
      - intros c. cbn. split; [intros [H|[]]; auto|auto]. }
    exists T2. split.
    - eapply eff_iff; [eapply eff_trans; [exact HG|exact HE1|exact HE2]|]. intros c. unfold prcalls, rule_calls. rewrite D1, D2. destruct c as [l|n|f' t' o' pre' w'].
      + split; [intros [(x & X & Y)|X]; [injection X as <-; auto|discriminate]|intros X; left; eauto].
      + split; [intros [(X & Y)|X]; [split; congruence|discriminate]|intros (X & Y); left; split; congruence].
      + split; [intros [[]|X]; injection X as -> -> -> -> ->; auto|intros (-> & -> & -> & -> & ->); auto].
    - intros b Hb. rewrite HS by auto. destruct (B (sb_stack b) (sb_key b) from ids) as (k' & B1 & B2). rewrite B1. rewrite D3. cbn [run ph_step].
      unfold ph_end_object. cbn [no_context p_sb sb_stack missing obind cur_type ph_add_rule set_rule set_pda set_sb pop_context sb_key p_rule p_pda p_from p_pre p_wc]. rewrite not_embedded. unfold ph_done. cbn [set_sb p_sb p_pda p_from p_pre p_wc p_rule].
      unfold bump. rewrite B2; [reflexivity|]. intros ->. cbn in EF. discriminate.
  Qed.

  Lemma flat_run : forall A (g : A -> list event) a l s, run step (flat_map g (a :: l)) s = match run step (g a) s with Some (Go s') => run step (flat_map g l) s' | x => x end.
  Proof. intros. cbn [flat_map]. apply run_app. Qed.
  Lemma bad_bind : forall (x : option (hres (ph))) f, bad x -> bad (match x with Some (Go s) => f s | Some (Halt s) => Some (Halt s) | Some Fail => Some Fail | None => None end).
  Proof. intros x f [-> |[H ->]]; [left|right]; auto. Qed.

  Notation spec_obj := (fun j => match j with JObj m => spec_rule m | _ => None end).
  Lemma array_run : forall l T f pre from ids, good T -> ready T f pre from ids -> no_arrays l -> Forall (regular_obj (cf_w cf)) l ->
    match omap spec_obj l with
    | Some ds => exists T', eff T T' (fun c => exists d, In d ds /\ rule_calls f pre d c) /\ forall s i k, k = k_from_label \/ k = k_none ->
        exists i' k', run step (flat_map events l) (mk_ph (mk_sb ((x_rule_array, CArr i) :: s) k) T from ids (String.eqb pre "*") (crule0 cf)) =
          Some (Go (mk_ph (mk_sb ((x_rule_array, CArr i') :: s) k') T' from ids (String.eqb pre "*") (crule0 cf)))
    | None => forall s i k, k = k_from_label \/ k = k_none -> bad (run step (flat_map events l) (mk_ph (mk_sb ((x_rule_array, CArr i) :: s) k) T from ids (String.eqb pre "*") (crule0 cf)))
    end.
  Proof.
    induction l as [|j l IH]; intros T f pre from ids HG HR HN HF.
    - cbn. exists T. split; [apply eff_refl; intros c (d & [] & _)|]. intros. eauto.
    - inversion_clear HN as [|? ? Hj HN']. inversion_clear HF as [|? ? Hf HF']. cbn [omap].
      destruct j as [|b|z| |v|a|m]; cbn beta iota; cbn [obind];
        try (intros s i k [-> | ->]; rewrite flat_run; left; cbn [events run]; try destruct (z <? 0)%Z; cbn [ph_step]; unfold ph_integer, ph_unsigned; cbn; destruct (cf_w cf) as [|? ? ?|[|] ? ?]; reflexivity);
        try (exfalso; apply Hj; exact I).
      assert (SR : forall s i k, starts_rule (mk_sb ((x_rule_array, CArr i) :: s) k)) by (intros; exists x_rule_array, (CArr i), s; auto).
      pose proof (rule_run m T f pre from ids HG HR Hf) as B. destruct (spec_rule m) as [d|]; cbn [obind].
      + destruct B as (T1 & B1 & B2). destruct (eff_good _ _ _ HG B1) as [HG1 HL1]. specialize (IH T1 f pre from ids HG1 (ready_mono _ _ _ _ _ _ HL1 HR) HN' HF').
        destruct (omap spec_obj l) as [ds|]; cbn [obind].
        * destruct IH as (T2 & C1 & C2). exists T2. split.
          -- eapply eff_iff; [eapply eff_trans; [exact HG|exact B1|exact C1]|]. intros c. cbn. split; [intros [H|(d' & H & H')]; eauto|intros (d' & [<-|H] & H'); eauto].
          -- intros s i k _. destruct (C2 s (S i) k_none (or_intror eq_refl)) as (i' & k' & C3). exists i', k'. rewrite flat_run, B2 by auto. exact C3.
        * intros s i k _. rewrite flat_run, B2 by auto. apply IH. auto.
      + intros s i k _. rewrite flat_run. apply bad_bind. apply B. auto.
  Qed.

  Notation spec_rules := (rules_of (cf_names cf) (cf_w cf) (cf_asserts cf)).
  Lemma rules_run : forall j T f pre from ids, good T -> ready T f pre from ids -> regular_rules (cf_w cf) j ->
    match spec_rules j with
    | Some ds => exists T', eff T T' (fun c => exists d, In d ds /\ rule_calls f pre d c) /\ forall s need,
        run step (events j) (mk_ph (mk_sb ((x_state, CObj need) :: s) k_from_label) T from ids (String.eqb pre "*") (crule0 cf)) =
          Some (Go (mk_ph (mk_sb ((x_state, CObj need) :: s) k_none) T' from ids (String.eqb pre "*") (crule0 cf)))
    | None => forall s need, bad (run step (events j) (mk_ph (mk_sb ((x_state, CObj need) :: s) k_from_label) T from ids (String.eqb pre "*") (crule0 cf)))
    end.
  Proof.
    intros j T f pre from ids HG HR HJ. destruct j as [|b|z| |v|a|m]; cbn [rules_of];
      try (intros s need; left; cbn [events run]; try destruct (z <? 0)%Z; cbn [ph_step]; unfold ph_integer, ph_unsigned; cbn; destruct (cf_w cf) as [|? ? ?|[|] ? ?]; reflexivity).
    - destruct HJ as [HN HF]. pose proof (array_run a T f pre from ids HG HR HN HF) as B.
      assert (HA : forall s need, run step (events (JArr a)) (mk_ph (mk_sb ((x_state, CObj need) :: s) k_from_label) T from ids (String.eqb pre "*") (crule0 cf)) =
        match run step (flat_map events a) (mk_ph (mk_sb ((x_rule_array, CArr 0) :: (x_state, CObj need) :: s) k_from_label) T from ids (String.eqb pre "*") (crule0 cf)) with Some (Go h) => run step [EEndArr] h | x => x end).
      { intros s need. cbn [events run ph_step]. unfold ph_start_array. cbn [no_context p_sb sb_stack sb_key ph_push set_sb push_context p_pda p_from p_pre p_wc p_rule]. apply run_app. }
      destruct (omap spec_obj a) as [ds|].
      + destruct B as (T' & B1 & B2). exists T'. split; auto. intros s need. destruct (B2 ((x_state, CObj need) :: s) 0 k_from_label (or_introl eq_refl)) as (i' & k' & B3). rewrite HA, B3. reflexivity.
      + intros s need. rewrite HA. apply bad_bind. apply B. auto.
    - pose proof (rule_run m T f pre from ids HG HR HJ) as B.
      assert (SR : forall s need, starts_rule (mk_sb ((x_state, CObj need) :: s) k_from_label)) by (intros; exists x_state, (CObj need), s; auto).
      destruct (spec_rule m) as [d|]; cbn [obind].
      + destruct B as (T' & B1 & B2). exists T'. split; [eapply eff_iff; [exact B1|]; intros c; cbn; split; [eauto|intros (d' & [<-|[]] & H); auto]|]. intros s need. rewrite B2; auto.
      + intros s need. apply B. auto.
  Qed.

  Notation spec_entries := (omap (fun e => rs <- spec_rules (snd e) ;; Some (fst e, rs))).
  Lemma entries_run : forall m T f from, good T -> resolves T f from -> Forall (fun e => regular_rules (cf_w cf) (snd e)) m ->
    match spec_entries m with
    | Some ms => exists T', eff T T' (state_calls f ms) /\ forall s need k ids wc, exists k' ids' wc', (k' = k \/ k' = k_none) /\
        run step (flat_map (fun e => EKey (fst e) :: events (snd e)) m) (mk_ph (mk_sb ((x_state, CObj need) :: s) k) T from ids wc (crule0 cf)) =
          Some (Go (mk_ph (mk_sb ((x_state, CObj need) :: s) k') T' from ids' wc' (crule0 cf)))
    | None => forall s need k ids wc, bad (run step (flat_map (fun e => EKey (fst e) :: events (snd e)) m) (mk_ph (mk_sb ((x_state, CObj need) :: s) k) T from ids wc (crule0 cf)))
    end.
  Proof.
    induction m as [|[l j] m IH]; intros T f from HG HR HF.
    - cbn. exists T. split; [apply eff_refl; intros c (e & [] & _)|]. intros. exists k, ids, wc. auto.
    - inversion_clear HF as [|? ? Hj HF']. cbn [snd] in Hj. cbn [omap fst snd].
      assert (HK : exists T1 ids1, eff T T1 (fun c => exists x, c = NLabel x /\ In x (pre_labels l)) /\ encode_pre String.eqb T1 (pre_labels l) = Some ids1 /\ forall s need k ids wc,
        step (mk_ph (mk_sb ((x_state, CObj need) :: s) k) T from ids wc (crule0 cf)) (EKey l) = Some (Go (mk_ph (mk_sb ((x_state, CObj need) :: s) k_from_label) T1 from ids1 (String.eqb l "*") (crule0 cf)))).
      { unfold pre_labels. cbn [ph_step]. unfold ph_key. cbn [no_context p_sb sb_stack cur_type obind]. destruct (String.eqb l "*") eqn:EL.
        - exists T, []. split; [apply eff_refl; intros c (x & _ & [])|]. split; [reflexivity|]. intros. reflexivity.
        - destruct (eff_label T l HG) as [H1 H2]. destruct (insert_label String.eqb T l) as [T1 i] eqn:EI. cbn [fst snd] in *. exists T1, [i]. split.
          + eapply eff_iff; [exact H1|]. intros c. cbn. split; [intros ->; eauto|intros (x & -> & [-> |[]]); auto].
          + split; [cbn; rewrite H2; auto|]. intros. cbn. rewrite EI. reflexivity. }
      destruct HK as (T1 & ids1 & K1 & K2 & K3). destruct (eff_good _ _ _ HG K1) as [HG1 HL1].
      assert (HR1 : ready T1 f l from ids1) by (split; auto; eapply resolves_mono; eauto).
      assert (HX : forall s need k ids wc, run step (flat_map (fun e => EKey (fst e) :: events (snd e)) ((l, j) :: m)) (mk_ph (mk_sb ((x_state, CObj need) :: s) k) T from ids wc (crule0 cf)) =
        match run step (events j) (mk_ph (mk_sb ((x_state, CObj need) :: s) k_from_label) T1 from ids1 (String.eqb l "*") (crule0 cf)) with
        | Some (Go h) => run step (flat_map (fun e => EKey (fst e) :: events (snd e)) m) h | x => x end).
      { intros. rewrite flat_run. cbn [fst snd run]. rewrite K3. reflexivity. }
      pose proof (rules_run j T1 f l from ids1 HG1 HR1 Hj) as B. destruct (spec_rules j) as [ds|]; cbn [obind]; [|intros; rewrite HX; apply bad_bind; apply B].
      destruct B as (T2 & B1 & B2). destruct (eff_good _ _ _ HG1 B1) as [HG2 HL2].
      assert (HR2 : resolves T2 f from) by (destruct (ready_mono _ _ _ _ _ _ HL2 HR1); auto).
      specialize (IH T2 f from HG2 HR2 HF'). destruct (spec_entries m) as [ms|]; cbn [obind].
      + destruct IH as (T3 & C1 & C2). exists T3. split.
        * eapply eff_iff; [eapply eff_trans; [exact HG|exact K1|eapply eff_trans; [exact HG1|exact B1|exact C1]]|]. intros c. unfold state_calls. cbn [In]. split.
          -- intros [H|[H|(e & H & H')]]; [exists (l, ds); split; auto; left; auto|exists (l, ds); split; auto; right; auto|eauto].
          -- intros (e & [<-|H] & H'); [destruct H' as [H'|H']; auto|right; right; eauto].
        * intros s need k ids wc. rewrite HX, B2. destruct (C2 s need k_none ids1 (String.eqb l "*")) as (k' & ids' & wc' & D1 & D2). exists k', ids', wc'. split; auto. destruct D1; auto.
      + intros. rewrite HX, B2. apply IH.
  Qed.

  Notation spec_state := (state_of (cf_names cf) (cf_w cf) (cf_asserts cf)).
  Definition starts_state (b : sbase pctx pkey) : Prop :=
    exists t v s, sb_stack b = (t, v) :: s /\ ((t = x_state_array /\ (sb_key b = k_states \/ sb_key b = k_none)) \/ (t = x_states_object /\ sb_key b = k_state_name)).
  Lemma state_run : forall j T f from, good T -> resolves T f from -> ~ is_array j -> regular_state (cf_w cf) j ->
    match spec_state j with
    | Some ms => exists T', eff T T' (state_calls f ms) /\ forall b ids wc, starts_state b -> exists k' ids' wc', (k' = sb_key b \/ k' = k_none) /\
        run step (events j) (mk_ph b T from ids wc (crule0 cf)) = Some (Go (mk_ph (bump b k') T' (if cf_names cf then from else S from) ids' wc' (crule0 cf)))
    | None => forall b ids wc, starts_state b -> bad (run step (events j) (mk_ph b T from ids wc (crule0 cf)))
    end.
  Proof.
    intros j T f from HG HR HN HJ. destruct j as [|b|z| |v|a|m]; cbn [state_of]; try (exfalso; apply HN; exact I);
      try (intros b0 ids wc (t & c & s & E & H); left; cbn [events run]; try destruct (z <? 0)%Z; cbn [ph_step]; unfold ph_other, ph_integer, ph_unsigned, ph_string, in_weight_array, no_context, cur_type; cbn [p_sb];
           rewrite ?E; destruct H as [[-> [-> | ->]]|[-> ->]]; destruct (cf_w cf) as [|? ? ?|[|] ? ?]; reflexivity).
    assert (HX : forall b ids wc, starts_state b -> run step (events (JObj m)) (mk_ph b T from ids wc (crule0 cf)) =
      match run step (flat_map (fun e => EKey (fst e) :: events (snd e)) m) (mk_ph (mk_sb ((x_state, CObj []) :: sb_stack b) (sb_key b)) T from ids wc (crule0 cf)) with Some (Go h) => run step [EEndObj] h | x => x end).
    { intros b ids wc (t & c & s & E & H). cbn [events run ph_step]. unfold ph_start_object, no_context, cur_type. cbn [p_sb]. rewrite E. cbn [obind].
      assert (EQ : match t with x_state_array => ph_push (mk_ph b T from ids wc (crule0 cf)) state_context | x_rule_array => ph_push (mk_ph b T from ids wc (crule0 cf)) (rule_context cf)
        | _ => match sb_key b with k_pda => ph_push (mk_ph b T from ids wc (crule0 cf)) pda_context | k_states => if cf_names cf then ph_push (mk_ph b T from ids wc (crule0 cf)) states_object else Some Fail
           | k_state_name => ph_push (mk_ph b T from ids wc (crule0 cf)) state_context | k_from_label => ph_push (mk_ph b T from ids wc (crule0 cf)) (rule_context cf)
           | k_unknown => ph_push (mk_ph b T from ids wc (crule0 cf)) unknown_context | _ => Some Fail end end = ph_push (mk_ph b T from ids wc (crule0 cf)) state_context).
      { destruct H as [[-> H]|[-> H]]; auto. rewrite H. auto. }
      rewrite EQ. unfold ph_push, set_sb, push_context, state_context. cbn [p_sb p_pda p_from p_pre p_wc p_rule]. rewrite run_app, E. reflexivity. }
    pose proof (entries_run m T f from HG HR HJ) as B. destruct (spec_entries m) as [ms|].
    - destruct B as (T' & B1 & B2). exists T'. split; auto. intros b ids wc Hb. rewrite HX by auto. destruct (B2 (sb_stack b) [] (sb_key b) ids wc) as (k' & ids' & wc' & B3 & B4). exists k', ids', wc'. split; auto.
      rewrite B4. cbn [run ph_step]. unfold ph_end_object. cbn [no_context p_sb sb_stack missing obind cur_type]. rewrite not_embedded. destruct (cf_names cf); reflexivity.
    - intros b ids wc Hb. rewrite HX by auto. apply bad_bind. apply B.
  Qed.

  Lemma named_run : forall m T, cf_names cf = true -> good T -> Forall (fun e => regular_state (cf_w cf) (snd e)) m ->
    match omap (fun e => s <- spec_state (snd e) ;; Some (SName (fst e), s)) m with
    | Some d => exists T', eff T T' (doc_calls d) /\ forall s need k from ids wc, exists k' from' ids' wc',
        run step (flat_map (fun e => EKey (fst e) :: events (snd e)) m) (mk_ph (mk_sb ((x_states_object, CObj need) :: s) k) T from ids wc (crule0 cf)) =
          Some (Go (mk_ph (mk_sb ((x_states_object, CObj need) :: s) k') T' from' ids' wc' (crule0 cf)))
    | None => forall s need k from ids wc, bad (run step (flat_map (fun e => EKey (fst e) :: events (snd e)) m) (mk_ph (mk_sb ((x_states_object, CObj need) :: s) k) T from ids wc (crule0 cf)))
    end.
  Proof.
    induction m as [|[n j] m IH]; intros T EN HG HF.
    - cbn. exists T. split; [apply eff_refl; intros c (e & [] & _)|]. intros. exists k, from, ids, wc. auto.
    - inversion_clear HF as [|? ? Hj HF']. cbn [snd] in Hj. cbn [omap fst snd]. destruct (eff_state T n HG) as [K1 K2].
      set (T1 := fst (insert_state String.eqb T n)) in *. set (i := snd (insert_state String.eqb T n)) in *. destruct (eff_good _ _ _ HG K1) as [HG1 HL1].
      assert (HR1 : resolves T1 (SName n) i) by (cbn; auto).
      assert (HX : forall s need k from ids wc, run step (flat_map (fun e => EKey (fst e) :: events (snd e)) ((n, j) :: m)) (mk_ph (mk_sb ((x_states_object, CObj need) :: s) k) T from ids wc (crule0 cf)) =
        match run step (events j) (mk_ph (mk_sb ((x_states_object, CObj need) :: s) k_state_name) T1 i ids wc (crule0 cf)) with
        | Some (Go h) => run step (flat_map (fun e => EKey (fst e) :: events (snd e)) m) h | x => x end).
      { intros. rewrite flat_run. cbn [fst snd run ph_step]. unfold ph_key. cbn [no_context p_sb sb_stack cur_type obind]. rewrite EN. cbn [p_pda]. unfold T1, i. destruct (insert_state String.eqb T n). reflexivity. }
      assert (SS : forall s need, starts_state (mk_sb ((x_states_object, CObj need) :: s) k_state_name)) by (intros s need; exists x_states_object, (CObj need), s; split; auto).
      assert (ARR : is_array j -> spec_state j = None /\ forall s need from ids wc, run step (events j) (mk_ph (mk_sb ((x_states_object, CObj need) :: s) k_state_name) T1 from ids wc (crule0 cf)) = Some Fail)
        by (destruct j; cbn; intros []; split; auto).
      assert (DA : is_array j \/ ~ is_array j) by (destruct j; cbn; auto). destruct DA as [DA|DA].
      { destruct (ARR DA) as [-> A2]. cbn [obind]. intros. rewrite HX, A2. left. auto. }
      pose proof (state_run j T1 (SName n) i HG1 HR1 DA Hj) as B. destruct (spec_state j) as [ms|]; cbn [obind]; [|intros; rewrite HX; apply bad_bind; apply B; auto].
      destruct B as (T2 & B1 & B2). destruct (eff_good _ _ _ HG1 B1) as [HG2 HL2].
      specialize (IH T2 EN HG2 HF'). destruct (omap _ m) as [d|]; cbn [obind].
      + destruct IH as (T3 & C1 & C2). exists T3. split.
        * eapply eff_iff; [eapply eff_trans; [exact HG|exact K1|eapply eff_trans; [exact HG1|exact B1|exact C1]]|]. intros c. unfold doc_calls. cbn [In]. split.
          -- intros [H|[H|(e & H & H')]]; [exists (SName n, ms); split; auto; left; exists n; auto|exists (SName n, ms); split; auto|eauto].
          -- intros (e & [<-|H] & H'); [destruct H' as [(n' & H1 & H2)|H']; [injection H2 as <-; auto|auto]|right; right; eauto].
        * intros s need k from ids wc. rewrite HX. destruct (B2 (mk_sb ((x_states_object, CObj need) :: s) k_state_name) ids wc (SS s need)) as (k1 & ids1 & wc1 & _ & B3). rewrite B3. apply C2.
      + intros s need k from ids wc. rewrite HX. destruct (B2 (mk_sb ((x_states_object, CObj need) :: s) k_state_name) ids wc (SS s need)) as (k1 & ids1 & wc1 & _ & B3). rewrite B3. apply IH.
  Qed.
  Lemma numbered_run : forall l n T, cf_names cf = false -> good T -> no_arrays l -> Forall (regular_state (cf_w cf)) l ->
    match omap (fun e => s <- spec_state (snd e) ;; Some (SNum (fst e), s)) (enum_from n l) with
    | Some d => exists T', eff T T' (doc_calls d) /\ forall s i k ids wc, k = k_states \/ k = k_none -> exists i' k' from' ids' wc',
        run step (flat_map events l) (mk_ph (mk_sb ((x_state_array, CArr i) :: s) k) T n ids wc (crule0 cf)) =
          Some (Go (mk_ph (mk_sb ((x_state_array, CArr i') :: s) k') T' from' ids' wc' (crule0 cf)))
    | None => forall s i k ids wc, k = k_states \/ k = k_none -> bad (run step (flat_map events l) (mk_ph (mk_sb ((x_state_array, CArr i) :: s) k) T n ids wc (crule0 cf)))
    end.
  Proof.
    induction l as [|j l IH]; intros n T EN HG HN HF.
    - cbn. exists T. split; [apply eff_refl; intros c (e & [] & _)|]. intros s i k ids wc _. exists i, k, n, ids, wc. auto.
    - inversion_clear HN as [|? ? Hj HN']. inversion_clear HF as [|? ? Hf HF']. cbn [enum_from omap fst snd].
      assert (HR : resolves T (SNum n) n) by (cbn; auto).
      assert (SS : forall s i k, k = k_states \/ k = k_none -> starts_state (mk_sb ((x_state_array, CArr i) :: s) k)) by (intros s i k H; exists x_state_array, (CArr i), s; split; auto).
      pose proof (state_run j T (SNum n) n HG HR Hj Hf) as B. destruct (spec_state j) as [ms|]; cbn [obind]; [|intros; rewrite flat_run; apply bad_bind; apply B; auto].
      destruct B as (T1 & B1 & B2). destruct (eff_good _ _ _ HG B1) as [HG1 HL1]. rewrite EN in B2.
      specialize (IH (S n) T1 EN HG1 HN' HF'). destruct (omap _ (enum_from (S n) l)) as [d|]; cbn [obind].
      + destruct IH as (T2 & C1 & C2). exists T2. split.
        * eapply eff_iff; [eapply eff_trans; [exact HG|exact B1|exact C1]|]. intros c. unfold doc_calls. cbn [In]. split.
          -- intros [H|(e & H & H')]; [exists (SNum n, ms); split; auto|eauto].
          -- intros (e & [<-|H] & H'); [destruct H' as [(n' & _ & H2)|H']; [discriminate|auto]|right; eauto].
        * intros s i k ids wc Hk. rewrite flat_run. destruct (B2 (mk_sb ((x_state_array, CArr i) :: s) k) ids wc (SS s i k Hk)) as (k1 & ids1 & wc1 & K1 & B3). rewrite B3. apply C2. cbn in K1. destruct K1 as [-> | ->]; auto.
      + intros s i k ids wc Hk. rewrite flat_run. destruct (B2 (mk_sb ((x_state_array, CArr i) :: s) k) ids wc (SS s i k Hk)) as (k1 & ids1 & wc1 & K1 & B3). rewrite B3. apply IH. cbn in K1. destruct K1 as [-> | ->]; auto.
  Qed.

  (** A value read in an object context [t] after key [kk]. *)
  Definition value_ok (t : pctx) (kk : pkey) (V : json -> option doc) (j : json) : Prop := forall T, good T ->
    match V j with
    | Some d => exists T', eff T T' (doc_calls d) /\ forall s need from ids wc, exists from' ids' wc',
        run step (events j) (mk_ph (mk_sb ((t, CObj need) :: s) kk) T from ids wc (crule0 cf)) = Some (Go (mk_ph (mk_sb ((t, CObj need) :: s) k_none) T' from' ids' wc' (crule0 cf)))
    | None => forall s need from ids wc, bad (run step (events j) (mk_ph (mk_sb ((t, CObj need) :: s) kk) T from ids wc (crule0 cf)))
    end.
  Notation spec_states := (states_of (cf_names cf) (cf_w cf) (cf_asserts cf)).
  Lemma states_run : forall j, regular_states (cf_w cf) j -> value_ok x_pda k_states spec_states j.
  Proof.
    intros j HJ T HG. destruct j as [|b|z| |v|a|m]; cbn [states_of];
      try (intros s need from ids wc; left; cbn [events run]; try destruct (z <? 0)%Z; cbn [ph_step]; unfold ph_integer, ph_unsigned; cbn; destruct (cf_w cf) as [|? ? ?|[|] ? ?]; reflexivity).
    - destruct HJ as [HN HF]. destruct (cf_names cf) eqn:EN.
      + intros s need from ids wc. left. cbn [events run ph_step]. unfold ph_start_array. cbn [no_context p_sb sb_stack sb_key]. rewrite EN. reflexivity.
      + pose proof (numbered_run a 0 T EN HG HN HF) as B.
        assert (HX : forall s need from ids wc, run step (events (JArr a)) (mk_ph (mk_sb ((x_pda, CObj need) :: s) k_states) T from ids wc (crule0 cf)) =
          match run step (flat_map events a) (mk_ph (mk_sb ((x_state_array, CArr 0) :: (x_pda, CObj need) :: s) k_states) T 0 ids wc (crule0 cf)) with Some (Go h) => run step [EEndArr] h | x => x end).
        { intros. cbn [events run ph_step]. unfold ph_start_array. cbn [no_context p_sb sb_stack sb_key]. rewrite EN. cbn [set_from ph_push set_sb push_context p_sb p_pda p_from p_pre p_wc p_rule]. apply run_app. }
        unfold enum. rewrite EN in B. destruct (omap _ (enum_from 0 a)) as [d|].
        * destruct B as (T' & B1 & B2). exists T'. split; auto. intros s need from ids wc. destruct (B2 ((x_pda, CObj need) :: s) 0 k_states ids wc (or_introl eq_refl)) as (i' & k' & from' & ids' & wc' & B3).
          exists from', ids', wc'. rewrite HX, B3. reflexivity.
        * intros. rewrite HX. apply bad_bind. apply B. auto.
    - destruct (cf_names cf) eqn:EN.
      + pose proof (named_run m T EN HG HJ) as B.
        assert (HX : forall s need from ids wc, run step (events (JObj m)) (mk_ph (mk_sb ((x_pda, CObj need) :: s) k_states) T from ids wc (crule0 cf)) =
          match run step (flat_map (fun e => EKey (fst e) :: events (snd e)) m) (mk_ph (mk_sb ((x_states_object, CObj []) :: (x_pda, CObj need) :: s) k_states) T from ids wc (crule0 cf)) with Some (Go h) => run step [EEndObj] h | x => x end).
        { intros. cbn [events run ph_step]. unfold ph_start_object. cbn [no_context p_sb sb_stack cur_type obind sb_key]. rewrite EN. cbn [ph_push set_sb push_context p_sb p_pda p_from p_pre p_wc p_rule]. apply run_app. }
        rewrite EN in B. destruct (omap _ m) as [d|].
        * destruct B as (T' & B1 & B2). exists T'. split; auto. intros s need from ids wc. destruct (B2 ((x_pda, CObj need) :: s) [] k_states from ids wc) as (k' & from' & ids' & wc' & B3).
          exists from', ids', wc'. rewrite HX, B3. cbn [run ph_step]. unfold ph_end_object. cbn [no_context p_sb sb_stack missing obind cur_type]. rewrite not_embedded. reflexivity.
        * intros. rewrite HX. apply bad_bind. apply B.
      + intros s need from ids wc. left. cbn [events run ph_step]. unfold ph_start_object. cbn [no_context p_sb sb_stack cur_type obind sb_key]. rewrite EN. reflexivity.
  Qed.

  (** A skipped value. *)
  Definition plain (t : pctx) : Prop := match t with x_initial | x_pda | x_unknown => True | _ => False end.
  Fixpoint skip_run (j : json) : small j -> forall t s need T from ids wc r, plain t ->
    run step (events j) (mk_ph (mk_sb ((t, CObj need) :: s) k_unknown) T from ids wc r) = Some (Go (mk_ph (mk_sb ((t, CObj need) :: s) k_none) T from ids wc r)).
  Proof.
    intros HS t s need T from ids wc r Ht. destruct j as [|b|z| |v|a|m];
      try (cbn [events run]; try destruct (z <? 0)%Z; cbn [ph_step]; unfold ph_integer, ph_unsigned; destruct t; destruct Ht; cbn; destruct (cf_w cf) as [|? ? ?|[|] ? ?]; reflexivity).
    - assert (HX : run step (events (JArr a)) (mk_ph (mk_sb ((t, CObj need) :: s) k_unknown) T from ids wc r) =
        match run step (flat_map events a) (mk_ph (mk_sb ((x_unknown, CObj []) :: (t, CObj need) :: s) k_unknown) T from ids wc r) with Some (Go h) => run step [EEndArr] h | x => x end).
      { cbn [events run ph_step]. unfold ph_start_array. cbn [no_context p_sb sb_stack sb_key ph_push set_sb push_context p_sb p_pda p_from p_pre p_wc p_rule]. apply run_app. }
      rewrite HX. destruct a as [|x [|]]; [reflexivity| |destruct HS]. rewrite flat_run. rewrite (skip_run x HS x_unknown ((t, CObj need) :: s) [] T from ids wc r I). reflexivity.
    - assert (HX : run step (events (JObj m)) (mk_ph (mk_sb ((t, CObj need) :: s) k_unknown) T from ids wc r) =
        match run step (flat_map (fun e => EKey (fst e) :: events (snd e)) m) (mk_ph (mk_sb ((x_unknown, CObj []) :: (t, CObj need) :: s) k_unknown) T from ids wc r) with Some (Go h) => run step [EEndObj] h | x => x end).
      { cbn [events run ph_step]. unfold ph_start_object. cbn [no_context p_sb sb_stack cur_type obind sb_key]. destruct t; destruct Ht; cbn [ph_push set_sb push_context p_sb p_pda p_from p_pre p_wc p_rule]; apply run_app. }
      rewrite HX. destruct m as [|[k x] [|]]; [| |destruct HS].
      + cbn. rewrite not_embedded. reflexivity.
      + rewrite flat_run. cbn [fst snd run ph_step]. unfold ph_key. cbn [no_context p_sb sb_stack cur_type obind].
        rewrite (skip_run x HS x_unknown ((t, CObj need) :: s) [] T from ids wc r I). cbn. rewrite not_embedded. reflexivity.
  Qed.

  Section Members.
    Variables (t : pctx) (name : string) (kk : pkey) (V : json -> option doc) (P : json -> Prop).
    Hypothesis Ht : plain t.
    Hypothesis HV : forall j, P j -> value_ok t kk V j.
    Hypothesis Hkey : forall key need s k T from ids wc r, step (mk_ph (mk_sb ((t, CObj need) :: s) k) T from ids wc r) (EKey key) =
      if String.eqb key name then ph_handle 1 kk (mk_ph (mk_sb ((t, CObj need) :: s) k) T from ids wc r)
      else Some (Go (mk_ph (mk_sb ((t, CObj need) :: s) k_unknown) T from ids wc r)).
    Notation mevents m := (flat_map (fun e : string * json => EKey (fst e) :: events (snd e)) m).
    Notation reg m := (Forall (fun e : string * json => if String.eqb (fst e) name then P (snd e) else small (snd e)) m).
    Lemma rest_run : forall m, reg m -> forall s k T from ids wc,
      match member name m with
      | [] => exists k', run step (mevents m) (mk_ph (mk_sb ((t, CObj []) :: s) k) T from ids wc (crule0 cf)) = Some (Go (mk_ph (mk_sb ((t, CObj []) :: s) k') T from ids wc (crule0 cf)))
      | _ => run step (mevents m) (mk_ph (mk_sb ((t, CObj []) :: s) k) T from ids wc (crule0 cf)) = Some Fail
      end.
    Proof.
      induction m as [|[key j] m IH]; intros HR s k T from ids wc.
      - cbn. eauto.
      - inversion_clear HR as [|? ? Hj HR']. cbn [fst snd] in Hj. unfold member. cbn [filter fst]. rewrite flat_run. cbn [fst snd run]. rewrite Hkey. destruct (String.eqb key name); cbn [map].
        + reflexivity.
        + rewrite (skip_run j Hj) by auto. apply IH. auto.
    Qed.
    Lemma doc_members : forall m, reg m -> forall T, good T ->
      match member name m with
      | [] => forall s k from ids wc, exists k', run step (mevents m) (mk_ph (mk_sb ((t, CObj [1]) :: s) k) T from ids wc (crule0 cf)) = Some (Go (mk_ph (mk_sb ((t, CObj [1]) :: s) k') T from ids wc (crule0 cf)))
      | [j] => match V j with
               | Some d => exists T', eff T T' (doc_calls d) /\ forall s k from ids wc, exists k' from' ids' wc',
                   run step (mevents m) (mk_ph (mk_sb ((t, CObj [1]) :: s) k) T from ids wc (crule0 cf)) = Some (Go (mk_ph (mk_sb ((t, CObj []) :: s) k') T' from' ids' wc' (crule0 cf)))
               | None => forall s k from ids wc, bad (run step (mevents m) (mk_ph (mk_sb ((t, CObj [1]) :: s) k) T from ids wc (crule0 cf)))
               end
      | _ => forall s k from ids wc, bad (run step (mevents m) (mk_ph (mk_sb ((t, CObj [1]) :: s) k) T from ids wc (crule0 cf)))
      end.
    Proof.
      induction m as [|[key j] m IH]; intros HR T HG.
      - cbn. eauto.
      - inversion_clear HR as [|? ? Hj HR']. cbn [fst snd] in Hj. unfold member. cbn [filter fst]. destruct (String.eqb key name) eqn:EK; cbn [map snd].
        + fold (member name m).
          assert (HX : forall s k from ids wc, run step (mevents ((key, j) :: m)) (mk_ph (mk_sb ((t, CObj [1]) :: s) k) T from ids wc (crule0 cf)) =
            match run step (events j) (mk_ph (mk_sb ((t, CObj []) :: s) kk) T from ids wc (crule0 cf)) with Some (Go h) => run step (mevents m) h | x => x end).
          { intros. rewrite flat_run. cbn [fst snd run]. rewrite Hkey, EK. reflexivity. }
          specialize (HV j Hj T HG). destruct (V j) as [d|].
          * destruct HV as (T' & B1 & B2). pose proof (rest_run m HR') as R. destruct (member name m) as [|j2 js].
            -- exists T'. split; auto. intros s k from ids wc. rewrite HX. destruct (B2 s [] from ids wc) as (from' & ids' & wc' & B3). rewrite B3. destruct (R s k_none T' from' ids' wc') as (k' & R'). exists k', from', ids', wc'. auto.
            -- intros s k from ids wc. rewrite HX. destruct (B2 s [] from ids wc) as (from' & ids' & wc' & B3). rewrite B3. left. apply R.
          * destruct (member name m); intros s k from ids wc; rewrite HX; apply bad_bind; apply HV.
        + fold (member name m).
          assert (HX : forall s k from ids wc, run step (mevents ((key, j) :: m)) (mk_ph (mk_sb ((t, CObj [1]) :: s) k) T from ids wc (crule0 cf)) =
            run step (mevents m) (mk_ph (mk_sb ((t, CObj [1]) :: s) k_none) T from ids wc (crule0 cf))).
          { intros. rewrite flat_run. cbn [fst snd run]. rewrite Hkey, EK. rewrite (skip_run j Hj) by auto. reflexivity. }
          specialize (IH HR' T HG). destruct (member name m) as [|j1 [|j2 js]].
          * intros. rewrite HX. apply IH.
          * destruct (V j1) as [d|]; [destruct IH as (T' & B1 & B2); exists T'; split; auto|]; intros; rewrite HX; auto.
          * intros. rewrite HX. apply IH.
    Qed.
  End Members.

  Notation spec_pda := (pda_of (cf_names cf) (cf_w cf) (cf_asserts cf)).
  Notation spec_doc := (doc_of (cf_names cf) (cf_w cf) (cf_asserts cf)).
  Lemma pda_run : forall j, regular_pda (cf_w cf) j -> value_ok x_initial k_pda spec_pda j.
  Proof.
    intros j HJ T HG. destruct j as [|b|z| |v|a|m]; cbn [pda_of];
      try (intros s need from ids wc; left; cbn [events run]; try destruct (z <? 0)%Z; cbn [ph_step]; unfold ph_integer, ph_unsigned; cbn; destruct (cf_w cf) as [|? ? ?|[|] ? ?]; reflexivity).
    assert (HX : forall s need from ids wc, run step (events (JObj m)) (mk_ph (mk_sb ((x_initial, CObj need) :: s) k_pda) T from ids wc (crule0 cf)) =
      match run step (flat_map (fun e => EKey (fst e) :: events (snd e)) m) (mk_ph (mk_sb ((x_pda, CObj [1]) :: (x_initial, CObj need) :: s) k_pda) T from ids wc (crule0 cf)) with Some (Go h) => run step [EEndObj] h | x => x end).
    { intros. cbn [events run ph_step]. unfold ph_start_object. cbn [no_context p_sb sb_stack cur_type obind sb_key ph_push set_sb push_context p_sb p_pda p_from p_pre p_wc p_rule]. apply run_app. }
    assert (B := doc_members x_pda "states" k_states spec_states (regular_states (cf_w cf)) I states_run (fun _ _ _ _ _ _ _ _ _ => eq_refl) m HJ T HG).
    destruct (member "states" m) as [|j1 [|j2 js]].
    - intros. rewrite HX. destruct (B ((x_initial, CObj need) :: s) k_pda from ids wc) as (k' & ->). left. reflexivity.
    - destruct (spec_states j1) as [d|].
      + destruct B as (T' & B1 & B2). exists T'. split; auto. intros s need from ids wc. destruct (B2 ((x_initial, CObj need) :: s) k_pda from ids wc) as (k' & from' & ids' & wc' & B3). exists from', ids', wc'. rewrite HX, B3.
        cbn [run ph_step]. unfold ph_end_object. cbn [no_context p_sb sb_stack missing obind cur_type]. rewrite not_embedded. reflexivity.
      + intros. rewrite HX. apply bad_bind. apply B.
    - intros. rewrite HX. apply bad_bind. apply B.
  Qed.
  Lemma empty_good : good tp_empty.
  Proof. exists []. apply empty_tinv. Qed.
  Lemma doc_run : forall j, regular (cf_w cf) j ->
    match spec_doc j with
    | Some d => exists T, parse_pda cf j = Some (Some T) /\ eff tp_empty T (doc_calls d)
    | None => parse_pda cf j = Some None \/ (cf_asserts cf = true /\ parse_pda cf j = None)
    end.
  Proof.
    intros j HJ. unfold parse_pda, ph0. rewrite not_embedded. destruct j as [|b|z| |v|a|m]; cbn [doc_of];
      try (left; cbn [events run]; try destruct (z <? 0)%Z; cbn [ph_step]; unfold ph_integer, ph_unsigned; cbn; destruct (cf_w cf) as [|? ? ?|[|] ? ?]; reflexivity).
    assert (HX : run step (events (JObj m)) (mk_ph (mk_sb [] k_none) tp_empty 0 [] false (crule0 cf)) =
      match run step (flat_map (fun e => EKey (fst e) :: events (snd e)) m) (mk_ph (mk_sb [(x_initial, CObj [1])] k_none) tp_empty 0 [] false (crule0 cf)) with Some (Go h) => run step [EEndObj] h | x => x end).
    { cbn [events run ph_step]. unfold ph_start_object. cbn [no_context p_sb sb_stack ph_push set_sb push_context p_sb p_pda p_from p_pre p_wc p_rule sb_key]. apply run_app. }
    rewrite HX.
    assert (B := doc_members x_initial "pda" k_pda spec_pda (regular_pda (cf_w cf)) I pda_run (fun _ _ _ _ _ _ _ _ _ => eq_refl) m HJ tp_empty empty_good).
    destruct (member "pda" m) as [|j1 [|j2 js]].
    - destruct (B [] k_none 0 [] false) as (k' & ->). left. reflexivity.
    - destruct (spec_pda j1) as [d|].
      + destruct B as (T' & B1 & B2). exists T'. split; auto. destruct (B2 [] k_none 0 [] false) as (k' & from' & ids' & wc' & ->). cbn [run ph_step]. unfold ph_end_object. cbn [no_context p_sb sb_stack missing obind cur_type].
        rewrite not_embedded. reflexivity.
      + destruct (B [] k_none 0 [] false) as [-> |[X ->]]; [left|right]; auto.
    - destruct (B [] k_none 0 [] false) as [-> |[X ->]]; [left|right]; auto.
  Qed.

  (** A rule of the automaton is one of the document: states by name, swapping in the label that is on top is the same as keeping it. *)
  Definition denotes (T : tp) (n : nrule) (r : trule string) : Prop :=
    resolves T (n_from n) (tr_from r) /\ tr_pre r = n_pre n /\ resolves T (n_to n) (tr_to r) /\ tr_w r = wval cf (n_w n) /\
    match n_op n with
    | DPop => tr_op r = POP
    | DSwap l => (tr_op r = SWAP /\ tr_opl r = l) \/ (tr_op r = NOOP /\ l = n_pre n)
    | DPush l => tr_op r = PUSH /\ tr_opl r = l
    end.
  Lemma doc_labels_calls : forall d l, In l (doc_labels d) <-> doc_calls d (NLabel l).
  Proof.
    intros d l. unfold doc_labels, doc_calls, state_calls, entry_calls. rewrite in_flat_map. split.
    - intros (s & Hs & H). apply in_flat_map in H. destruct H as (e & He & H). exists s. split; auto. right. exists e. split; auto. apply in_app_or in H. destruct H as [H|H]; [left; eauto|].
      apply in_flat_map in H. destruct H as (x & Hx & H). right. exists x. split; auto.
    - intros (s & Hs & [(n & H & _)|(e & He & [(x & X & Y)|(x & X & Y)])]); [discriminate| |]; exists s; split; auto; apply in_flat_map; exists e; split; auto; apply in_or_app.
      + left. congruence.
      + right. apply in_flat_map. exists x. auto.
  Qed.
  Lemma doc_rules_calls : forall d f t o pre w, doc_calls d (NRule f t o pre w) <-> exists ms rs x, In (f, ms) d /\ In (pre, rs) ms /\ In x rs /\ t = d_to x /\ o = d_op x /\ w = d_w x.
  Proof.
    intros d f t o pre w. unfold doc_calls, state_calls, entry_calls. split.
    - intros ([f' ms] & Hs & [(n & H & _)|([l rs] & He & [(x & X & Y)|(x & X & (-> & -> & -> & -> & ->))])]); [discriminate|discriminate|]. cbn [fst snd] in *. exists ms, rs, x. auto 10.
    - intros (ms & rs & x & H1 & H2 & H3 & -> & -> & ->). exists (f, ms). split; auto. right. exists (pre, rs). split; auto. right. exists x. cbn. auto 10.
  Qed.
  Lemma doc_rules_over : forall d X T, eff tp_empty T (fun c => doc_calls d c \/ exists l, c = NLabel l /\ In l X) -> exists rs, all_rules "" T = Some rs /\
    (forall r, In r rs -> exists n, written_over (doc_labels d ++ X) d n /\ denotes T n r) /\ (forall n, written_over (doc_labels d ++ X) d n -> exists r, In r rs /\ denotes T n r) /\
    (forall l, (exists i, exists_label String.eqb T l = Some i) <-> In l (doc_labels d ++ X)%list) /\
    (forall s, (exists i, exists_state String.eqb T s = Some i) <-> doc_calls d (NState s)).
  Proof.
    intros d X T (ncs & cs & E & F & Q).
    assert (HI := tcalls_inv string String.eqb string String.eqb (cf_no_opl cf) String.eqb_eq String.eqb_eq true cs T E).
    assert (FL : forall n, In n ncs -> exists c, In c cs /\ crel T n c).
    { clear - F. induction F as [|a b l l' H F IH]; [intros n []|]. intros n [<-|Hn]; [exists b; cbn; auto|]. destruct (IH n Hn) as (c & H1 & H2). exists c. cbn. auto. }
    assert (FR : forall c, In c cs -> exists n, In n ncs /\ crel T n c).
    { clear - F. induction F as [|a b l l' H F IH]; [intros n []|]. intros n [<-|Hn]; [exists a; cbn; auto|]. destruct (IH n Hn) as (c & H1 & H2). exists c. cbn. auto. }
    assert (HL : forall l, In (TLabel l) cs <-> In l (doc_labels d ++ X)%list).
    { intros l. rewrite in_app_iff, doc_labels_calls. transitivity (In (NLabel l) ncs); [|rewrite Q; split; [intros [H|(k & H & H')]; [auto|injection H as ->; auto]|intros [H|H]; eauto]]. split.
      - intros H. destruct (FR _ H) as (n & H1 & H2). destruct n; cbn in H2; try discriminate; [injection H2 as ->; auto|]. destruct H2 as (i & j & _ & _ & H2). discriminate.
      - intros H. destruct (FL _ H) as (c & H1 & H2). cbn in H2. subst c. auto. }
    assert (HSt : forall s, In (TState s) cs <-> doc_calls d (NState s)).
    { intros l. transitivity (In (NState l) ncs); [|rewrite Q; split; [intros [H|(k & H & H')]; [auto|discriminate]|auto]]. split.
      - intros H. destruct (FR _ H) as (n & H1 & H2). destruct n; cbn in H2; try discriminate; [injection H2 as ->; auto|]. destruct H2 as (i & j & _ & _ & H2). discriminate.
      - intros H. destruct (FL _ H) as (c & H1 & H2). cbn in H2. subst c. auto. }
    destruct (all_rules_spec string String.eqb "" string (cf_no_opl cf) String.eqb_eq cs T HI) as (rs & R1 & R2).
    exists rs. split; auto. split; [|split; [|split]].
    - intros r Hr. apply R2 in Hr. destruct Hr as (opl & wc & pre & H1 & H2 & H3). destruct (FR _ H1) as (n & N1 & N2). destruct n as [l|s|f t o p w]; cbn in N2; try discriminate.
      destruct N2 as (i & j & A1 & A2 & A3). injection A3 as B1 B2 B3 B4 B5 B6 B7. apply Q in N1. destruct N1 as [N1|(k & N1 & _)]; [|discriminate]. apply doc_rules_calls in N1. destruct N1 as (ms & xs & x & C1 & C2 & C3 & -> & -> & ->).
      exists (mk_nrule f (tr_pre r) (d_to x) (if String.eqb p "*" then match d_op x with DSwap k => if String.eqb k "*" then DSwap (tr_pre r) else DSwap k | o => o end else d_op x) (d_w x)). split.
      + exists ms, p, xs, x. cbn [n_from n_pre n_to n_op n_w]. split; auto. split; auto. split; auto. split; auto. split; auto. subst wc pre. destruct (String.eqb p "*") eqn:EP.
        * split; auto. apply HL. auto.
        * split; auto. unfold pre_labels in H3. rewrite EP in H3. destruct H3 as [->|[]]; auto.
      + unfold denotes. cbn [n_from n_pre n_to n_op n_w]. subst i j. split; auto. split; auto. split; auto. split; auto. unfold cop in B3, B4.
        destruct (d_op x) as [|k|k]; cbn in B3, B4.
        * destruct (String.eqb p "*"); auto.
        * destruct (String.eqb p "*"); cbn in B3, B4; [destruct (String.eqb k "*"); cbn in B3, B4|]; rewrite B3 in *; subst opl; auto.
        * rewrite B3 in *. subst opl. destruct (String.eqb p "*"); auto.
    - intros n (ms & p & xs & x & C1 & C2 & C3 & C4 & C5 & C6). assert (N1 : In (NRule (n_from n) (d_to x) (d_op x) p (d_w x)) ncs) by (apply Q; left; apply doc_rules_calls; exists ms, xs, x; auto 10).
      destruct (FL _ N1) as (c & H1 & (i & j & A1 & A2 & ->)).
      exists (mk_trule i (n_pre n) j (fst (cop p (d_op x))) (match fst (cop p (d_op x)) with POP | NOOP => "" | _ => snd (cop p (d_op x)) end) (wval cf (d_w x))). split.
      + apply R2. exists (snd (cop p (d_op x))), (String.eqb p "*"), (pre_labels p). cbn [tr_from tr_pre tr_to tr_op tr_opl tr_w]. split; auto. split; auto. unfold pre_labels. destruct (String.eqb p "*").
        * apply HL. apply C6.
        * destruct C6 as [-> _]. cbn. auto.
      + unfold denotes. cbn [tr_from tr_pre tr_to tr_op tr_opl tr_w]. rewrite C4, C5. split; auto. split; auto. split; auto. split; auto. unfold cop. destruct (String.eqb p "*") eqn:EP.
        * destruct C6 as [_ ->]. destruct (d_op x) as [|k|k]; cbn; auto. destruct (String.eqb k "*"); cbn; auto.
        * destruct C6 as [_ ->]. destruct (d_op x) as [|k|k]; cbn; auto.
    - intros l. rewrite <- HL, <- (ti_labs _ _ _ _ _ _ HI). split.
      + intros [i Hi]. apply (label_nth string String.eqb string (cf_no_opl cf) String.eqb_eq cs) in Hi; auto. eapply nth_error_In; eauto.
      + intros H. apply In_nth_error in H. destruct H as [i Hi]. exists i. apply (label_nth string String.eqb string (cf_no_opl cf) String.eqb_eq cs); auto.
    - intros l. rewrite <- HSt, <- (ti_states _ _ _ _ _ _ HI). split.
      + intros [i Hi]. apply (state_nth string String.eqb string String.eqb (cf_no_opl cf) String.eqb_eq cs) in Hi; auto. eapply nth_error_In; eauto.
      + intros H. apply In_nth_error in H. destruct H as [i Hi]. exists i. apply (state_nth string String.eqb string String.eqb (cf_no_opl cf) String.eqb_eq cs); auto.
  Qed.
  Lemma doc_rules : forall d T, eff tp_empty T (doc_calls d) -> exists rs, all_rules "" T = Some rs /\
    (forall r, In r rs -> exists n, written d n /\ denotes T n r) /\ (forall n, written d n -> exists r, In r rs /\ denotes T n r) /\
    (forall l, (exists i, exists_label String.eqb T l = Some i) <-> In l (doc_labels d)) /\
    (forall s, (exists i, exists_state String.eqb T s = Some i) <-> doc_calls d (NState s)).
  Proof.
    intros d T H. assert (H' : eff tp_empty T (fun c => doc_calls d c \/ exists l, c = NLabel l /\ In l [])) by (eapply eff_iff; [exact H|]; intros c; split; [auto|intros [K|(l & _ & [])]; auto]).
    apply doc_rules_over in H'. rewrite app_nil_r in H'. exact H'.
  Qed.
End Read.
