(** Proofs about the reading of solver instances (InstModel): the handlers behind the dispatch. *)
From Coq Require Import List Arith Lia Bool ZArith String Permutation.
From Verif Require Import Base BaseFacts Spec PdaModel PdaProof TrieModel RefineModel MappingProof TypedModel TypedProof AutModel AutProof NfaModel ConstructProof JsonModel JsonSpec JsonProof JsonSafe
  AutJsonModel AutJsonSpec AutJsonProof InstModel InstSpec InstProof.
Import ListNotations.
Open Scope string_scope.
Open Scope nat_scope.

(** ** Runs that stop at the last event *)
Definition halts {S} (step : S -> event -> option (hres S)) (es : list event) (h h' : S) : Prop :=
  exists es0 e h0, es = (es0 ++ [e])%list /\ run step es0 h = Some (Go h0) /\ step h0 e = Some (Halt h').

Definition starts (e : event) : bool := match e with EStartObj | EStartArr => true | _ => false end.
Definition ends (e : event) : bool := match e with EEndObj | EEndArr => true | _ => false end.
Section Nest.
  Variables (S K : Type) (step1 step2 : S -> event -> option (hres S)) (types : S -> list K) (ini : K).
  Hypothesis agree : forall h e t ts, types h = t :: ts -> t <> ini -> (ends e = true -> exists t' ts', ts = t' :: ts' /\ t' <> ini) -> step1 h e = step2 h e.
  Hypothesis shape : forall h e t ts, types h = t :: ts -> t <> ini -> (ends e = true -> exists t' ts', ts = t' :: ts' /\ t' <> ini) ->
    match step1 h e with
    | Some (Go h') => if starts e then exists t', t' <> ini /\ types h' = t' :: t :: ts else if ends e then types h' = ts else types h' = t :: ts
    | Some (Halt _) => False
    | _ => True
    end.
  Definition nested_ok (es : list event) : Prop := forall h t ts, types h = t :: ts -> t <> ini ->
    run step1 es h = run step2 es h /\ match run step1 es h with Some (Go h') => types h' = t :: ts | Some (Halt _) => False | _ => True end.
  Lemma nested_nil : nested_ok [].
  Proof. intros h t ts H1 H2. cbn. auto. Qed.
  Lemma nested_app : forall a b, nested_ok a -> nested_ok b -> nested_ok (a ++ b)%list.
  Proof.
    intros a b HA HB h t ts H1 H2. rewrite !run_app. destruct (HA h t ts H1 H2) as [E1 E2]. rewrite <- E1. destruct (run step1 a h) as [[h'|h'|]|]; auto.
  Qed.
  Lemma nested_leaf : forall e, starts e = false -> ends e = false -> nested_ok [e].
  Proof.
    intros e HA HB h t ts H1 H2. cbn [run]. assert (A := agree h e t ts H1 H2). assert (B := shape h e t ts H1 H2). rewrite HB in *. rewrite HA in *. rewrite <- A by discriminate. specialize (B ltac:(discriminate)). destruct (step1 h e) as [[h'|h'|]|]; auto.
  Qed.
  Lemma nested_block : forall s e b, starts s = true -> ends s = false -> starts e = false -> ends e = true -> nested_ok b -> nested_ok (s :: b ++ [e])%list.
  Proof.
    intros s e b S1 S2 E1 E2 HB h t ts H1 H2. cbn [run]. assert (A := agree h s t ts H1 H2). assert (B := shape h s t ts H1 H2). rewrite S2 in *. rewrite S1 in *. rewrite <- A by discriminate. specialize (B ltac:(discriminate)).
    destruct (step1 h s) as [[h1|h1|]|]; auto. destruct B as (t' & B1 & B2). rewrite !run_app. destruct (HB h1 t' (t :: ts) B2 B1) as [C1 C2]. rewrite <- C1. destruct (run step1 b h1) as [[h2|h2|]|]; auto. cbn [run].
    assert (A' := agree h2 e t' (t :: ts) C2 B1). assert (B' := shape h2 e t' (t :: ts) C2 B1). rewrite E1, E2 in *. rewrite <- A' by eauto. specialize (B' ltac:(eauto)). destruct (step1 h2 e) as [[h3|h3|]|]; auto.
  Qed.
  Lemma nested_list : forall A (f : A -> list event) l, Forall (fun x => nested_ok (f x)) l -> nested_ok (flat_map f l).
  Proof. intros A f l H. induction H as [|x l Hx Hl IH]; cbn; [apply nested_nil|apply nested_app; auto]. Qed.
  Lemma nested : forall j, nested_ok (events j).
  Proof.
    intros j. induction j as [|b|z| |s|l IH|m IH] using json_rect'; cbn [events]; try (apply nested_leaf; reflexivity).
    - destruct (z <? 0)%Z; apply nested_leaf; reflexivity.
    - apply nested_block; auto. apply nested_list; auto.
    - apply nested_block; auto. apply nested_list. eapply Forall_impl; [|exact IH]. intros [k x] H. change (EKey (fst (k, x)) :: events (snd (k, x))) with ([EKey k] ++ events x)%list. apply nested_app; auto. apply nested_leaf; reflexivity.
  Qed.
  Lemma nested_members : forall m, nested_ok (flat_map (fun e => EKey (fst e) :: events (snd e)) m).
  Proof.
    intros m. apply nested_list. apply Forall_forall. intros [k x] _. change (EKey (fst (k, x)) :: events (snd (k, x))) with ([EKey k] ++ events x)%list. apply nested_app; [apply nested_leaf; reflexivity|apply nested].
  Qed.
End Nest.

(** ** The embedded handler of pushdown automata *)
Definition ptypes (h : ph) : list pctx := map fst (sb_stack (p_sb h)).
Section EPda.
  Variables (names : bool) (wk : wkind) (asserts : bool) (no_opl : nat) (wenc : list Z -> Z).
  Notation cf := (mk_jcfg names wk false asserts no_opl wenc).
  Notation cfE := (mk_jcfg names wk true asserts no_opl wenc).
  Lemma done_types : forall h r, ph_done h = Some r -> exists h', r = Go h' /\ ptypes h' = ptypes h.
  Proof. intros h r H. unfold ph_done in H. injection H as <-. eexists. split; [reflexivity|]. unfold ptypes, element_done. cbn. destruct (sb_stack (p_sb h)) as [|[t [nd|i]] s]; reflexivity. Qed.
  Lemma handle_types : forall f k h r, ph_handle f k h = Some r -> match r with Go h' => ptypes h' = ptypes h | Halt _ => False | Fail => True end.
  Proof.
    intros f k h r H. unfold ph_handle, handle_key in H. unfold ptypes. destruct (sb_stack (p_sb h)) as [|[t [nd|i]] s] eqn:E; try discriminate. destruct (memb f nd); injection H as <-; cbn; auto.
  Qed.
  Ltac dones := repeat match goal with |- context [ph_done ?g] => let r := fresh in let h' := fresh in destruct (done_types g _ eq_refl) as (h' & r & ?); unfold ph_done; injection r as r; rewrite r; clear r end.
  Definition keeps1 (h : ph) (r : option (hres ph)) : Prop := match r with Some (Go h') => ptypes h' = ptypes h | Some (Halt _) => False | _ => True end.
  Lemma done1 : forall h g, ptypes g = ptypes h -> keeps1 h (ph_done g).
  Proof. intros h g H. destruct (done_types g _ eq_refl) as (h' & E & E'). unfold keeps1. rewrite (f_equal (@Some _) E : ph_done g = _). congruence. Qed.
  Lemma handle1 : forall f k h, keeps1 h (ph_handle f k h).
  Proof. intros f k h. assert (H := handle_types f k h). unfold keeps1. destruct (ph_handle f k h) as [r|]; auto. specialize (H r eq_refl). destruct r; auto. Qed.
  Ltac crunch := repeat first [exact Logic.I | reflexivity | apply done1; reflexivity | apply handle1 | match goal with |- keeps1 _ (match ?x with _ => _ end) => destruct x end].
  Lemma leaf1 : forall c h e, starts e = false -> ends e = false -> keeps1 h (ph_step c h e).
  Proof.
    intros c h e S1 S2. destruct e; try discriminate; cbn [ph_step];
      unfold ph_other, ph_integer, ph_unsigned, ph_string, ph_key, obind; cbv zeta; crunch.
  Qed.
  Lemma start1 : forall c h e, starts e = true -> ptypes h <> [] -> match ph_step c h e with Some (Go h') => exists t, t <> x_initial /\ ptypes h' = t :: ptypes h | Some (Halt _) => False | _ => True end.
  Proof.
    intros c h e S1 HN. assert (NC : no_context (p_sb h) = false) by (unfold no_context; unfold ptypes in HN; destruct (sb_stack (p_sb h)); auto; cbn in HN; congruence).
    assert (X : forall g t cv, ptypes g = ptypes h -> t <> x_initial -> match ph_push g (t, cv) with Some (Go h') => exists t, t <> x_initial /\ ptypes h' = t :: ptypes h | Some (Halt _) => False | _ => True end).
    { intros g t cv E H. cbn. exists t. split; auto. unfold ptypes in *. cbn. congruence. }
    destruct e; try discriminate; cbn [ph_step].
    - unfold ph_start_object. rewrite NC. destruct (cur_type (p_sb h)) as [t|]; cbn [obind]; auto. destruct t; try (apply X; [reflexivity|discriminate]); destruct (sb_key (p_sb h)); try exact Logic.I; try (apply X; [reflexivity|discriminate]); destruct (cf_names c); try exact Logic.I; apply X; try reflexivity; discriminate.
    - unfold ph_start_array. rewrite NC. destruct (sb_key (p_sb h)); try exact Logic.I; try (apply X; [reflexivity|discriminate]).
      + destruct (cf_names c); try exact Logic.I. apply X; [reflexivity|discriminate].
      + destruct (cf_w c); try exact Logic.I. apply X; [reflexivity|discriminate].
  Qed.
  Lemma same_other : forall h e, e <> EEndObj -> ph_step cfE h e = ph_step cf h e.
  Proof. intros h e H. destruct e; try reflexivity. congruence. Qed.
  (** The end of an object: the same but for the way it stops. *)
  Lemma end_obj : forall h t ts, ptypes h = t :: ts ->
    match ph_step cf h EEndObj with
    | Some (Go h') => ptypes h' = ts /\ (forall t' ts', ts = t' :: ts' -> if match t' with x_initial => true | _ => false end then exists h'', ph_step cfE h EEndObj = Some (Halt h'') /\ p_pda h'' = p_pda h' else ph_step cfE h EEndObj = Some (Go h'))
    | Some (Halt _) => False
    | r => ph_step cfE h EEndObj = r
    end.
  Proof.
    intros h t ts H. cbn [ph_step]. unfold ph_end_object. destruct h as [[st key] T from pre wc r]. unfold ptypes in H. cbn [p_sb sb_stack] in H. destruct st as [|[t0 cv] st]; [discriminate|]. cbn [map fst] in H. injection H as -> <-.
    cbn [no_context p_sb sb_stack cf_embedded]. destruct cv as [need|i]; cbn [missing sb_stack obind]; [|reflexivity]. destruct need; [|reflexivity]. cbn [cur_type sb_stack obind cf_names]. change (ph_add_rule cfE) with (ph_add_rule cf).
    set (h1 := match t with x_state => _ | x_rule => _ | _ => _ end). assert (B1 : p_sb h1 = mk_sb ((t, CObj []) :: st) key) by (unfold h1; destruct t; try reflexivity; destruct names; reflexivity). clearbody h1. rewrite B1. cbn [pop_context sb_stack obind].
    set (h2 := set_sb h1 (mk_sb st (sb_key _))). assert (B2 : p_sb h2 = mk_sb st key) by reflexivity. destruct (done_types h2 _ eq_refl) as (h3 & E3 & T3). assert (P3 : p_pda h3 = p_pda h2) by (injection E3 as <-; reflexivity).
    rewrite (f_equal (@Some _) E3 : ph_done h2 = _). split; [rewrite T3; unfold ptypes; rewrite B2; reflexivity|]. intros t' ts' E. destruct st as [|[u cv] st]; [discriminate|]. cbn [map fst] in E. injection E as -> _.
    rewrite B2. cbn [cur_type sb_stack obind]. destruct t'; auto. exists h2. auto.
  Qed.
  Lemma pda_agree : forall h e t ts, ptypes h = t :: ts -> t <> x_initial -> (ends e = true -> exists t' ts', ts = t' :: ts' /\ t' <> x_initial) -> ph_step cfE h e = ph_step cf h e.
  Proof.
    intros h e t ts H1 H2 H3. destruct e; try reflexivity. destruct (H3 eq_refl) as (t' & ts' & -> & N). assert (X := end_obj h t _ H1). destruct (ph_step cf h EEndObj) as [[h'|h'|]|]; auto; [|destruct X].
    destruct X as [_ X]. specialize (X t' ts' eq_refl). destruct t'; auto; congruence.
  Qed.
  Lemma pda_shape : forall h e t ts, ptypes h = t :: ts -> t <> x_initial -> (ends e = true -> exists t' ts', ts = t' :: ts' /\ t' <> x_initial) ->
    match ph_step cfE h e with
    | Some (Go h') => if starts e then exists t', t' <> x_initial /\ ptypes h' = t' :: t :: ts else if ends e then ptypes h' = ts else ptypes h' = t :: ts
    | Some (Halt _) => False
    | _ => True
    end.
  Proof.
    intros h e t ts H1 H2 H3. destruct (starts e) eqn:ES.
    - assert (X := start1 cfE h e ES). rewrite H1 in X. specialize (X ltac:(discriminate)). exact X.
    - destruct (ends e) eqn:EE.
      + rewrite (pda_agree h e t ts H1 H2) by (rewrite EE; auto). destruct e; try discriminate.
        * assert (X := end_obj h t ts H1). destruct (ph_step cf h EEndObj) as [[h'|h'|]|]; auto. apply X.
        * cbn [ph_step]. unfold ph_end_array, no_context, pop_context. unfold ptypes in H1. destruct (sb_stack (p_sb h)) as [|[t0 cv] st] eqn:E; [discriminate|]. cbn [obind]. cbn [map fst] in H1. injection H1 as -> <-.
          match goal with |- context [ph_done ?g] => destruct (done_types g _ eq_refl) as (h3 & E3 & T3); rewrite (f_equal (@Some _) E3 : ph_done g = _) end. exact T3.
      + assert (X := leaf1 cfE h e ES EE). unfold keeps1 in X. destruct (ph_step cfE h e) as [[h'|h'|]|]; auto. congruence.
  Qed.
  (** The value of "pda". *)
  Lemma epda_run : forall j, regular_pda wk j ->
    match pda_of names wk asserts j with
    | Some d => exists T p', eff cf tp_empty T (doc_calls cf d) /\ halts (ph_step cfE) (events j) (ph0 cfE) p' /\ p_pda p' = T
    | None => run (ph_step cfE) (events j) (ph0 cfE) = Some Fail \/ (asserts = true /\ run (ph_step cfE) (events j) (ph0 cfE) = None)
    end.
  Proof.
    intros j HJ. assert (V := pda_run cf eq_refl j HJ tp_empty (empty_good cf)). cbn [cf_names cf_w cf_asserts] in V.
    assert (X : forall j, match j with JObj m => False | _ => True end -> run (ph_step cfE) (events j) (ph0 cfE) = run (ph_step cf) (events j) (ph0 cfE)).
    { intros j0 K. destruct j0; try destruct K; try reflexivity. }
    assert (Y : forall m, match run (ph_step cf) (events (JObj m)) (ph0 cfE) with Some (Go h') => exists h'', halts (ph_step cfE) (events (JObj m)) (ph0 cfE) h'' /\ p_pda h'' = p_pda h' | Some (Halt _) => False | r => run (ph_step cfE) (events (JObj m)) (ph0 cfE) = r end).
    { intros m. cbn [events]. set (body := flat_map _ m). assert (N := nested_members _ _ (ph_step cfE) (ph_step cf) ptypes x_initial pda_agree pda_shape m). fold body in N. cbn [run].
      change (ph_step cfE (ph0 cfE) EStartObj) with (Some (Go (mk_ph (mk_sb [pda_context; initial_context] k_pda) tp_empty 0 [] false (crule0 cf)))).
      change (ph_step cf (ph0 cfE) EStartObj) with (Some (Go (mk_ph (mk_sb [pda_context; initial_context] k_pda) tp_empty 0 [] false (crule0 cf)))). cbv beta iota. set (h1 := mk_ph _ _ _ _ _ _).
      rewrite !run_app. destruct (N h1 x_pda [x_initial] eq_refl ltac:(discriminate)) as [N1 N2]. rewrite <- N1. destruct (run (ph_step cfE) body h1) as [[h2|h2|]|] eqn:EB; auto. cbn [run]. assert (Z := end_obj h2 x_pda [x_initial] N2).
      destruct (ph_step cf h2 EEndObj) as [[h3|h3|]|]; [|destruct Z|rewrite Z; auto|rewrite Z; auto]. destruct Z as [_ Z]. specialize (Z x_initial [] eq_refl). cbv beta iota in Z. destruct Z as (h4 & Z1 & Z2). exists h4. split; auto.
      exists (EStartObj :: body), EEndObj, h2. split; auto. }
    destruct (pda_of names wk asserts j) as [d|] eqn:EJ.
    - destruct V as (T & V1 & V2). destruct (V2 [] [1] 0 [] false) as (f' & i' & w' & V3). destruct j as [| | | | | |m]; try discriminate. specialize (Y m). change (ph0 cfE) with (mk_ph (mk_sb [(x_initial, CObj [1])] k_pda) tp_empty 0 [] false (crule0 cf)) in *. rewrite V3 in Y.
      destruct Y as (p' & Y1 & Y2). exists T, p'. auto.
    - specialize (V [] [1] 0 [] false). unfold bad in V. cbn [cf_asserts] in V. change (ph0 cfE) with (mk_ph (mk_sb [(x_initial, CObj [1])] k_pda) tp_empty 0 [] false (crule0 cf)) in *.
      destruct j as [| | | | | |m]; try (rewrite X by exact Logic.I; exact V). specialize (Y m). destruct V as [V|[VA V]]; rewrite V in Y; rewrite Y; auto.
  Qed.
End EPda.

(** ** The embedded handler of automata *)
Definition atypes (h : ah) : list actx := map fst (sb_stack (h_sb h)).
Section EAut.
  Variables (names asserts : bool).
  Notation step := (ah_step names true asserts).
  Definition akeeps (h : ah) (r : option (hres ah)) : Prop := match r with Some (Go h') => atypes h' = atypes h | Some (Halt _) => False | _ => True end.
  Lemma adone1 : forall h g, atypes g = atypes h -> akeeps h (ah_done g).
  Proof. intros h g H. unfold akeeps, ah_done, atypes, element_done in *. cbn. destruct (sb_stack (h_sb g)) as [|[t [nd|i]] s]; exact H. Qed.
  Lemma ahandle1 : forall f k h, akeeps h (ah_handle f k h).
  Proof. intros f k h. unfold akeeps, ah_handle, handle_key, atypes. destruct (sb_stack (h_sb h)) as [|[t [nd|i]] s]; auto. destruct (memb f nd); cbn; auto. Qed.
  Lemma number_sb : forall h v h' q, number_state names h v = (h', q) -> h_sb h' = h_sb h.
  Proof. intros h v h' q H. unfold number_state in H. destruct (_ && _); [injection H as <- <-; auto|]. destruct (extra_find (h_extra h) v); injection H as <- <-; reflexivity. Qed.
  Lemma string_sb : forall h s h' q, string_state names asserts h s = Some (Some (h', q)) -> h_sb h' = h_sb h.
  Proof.
    intros h s h' q H. unfold string_state in H. destruct names; [|discriminate]. destruct (aut_exists_state h s); [injection H as <- <-; auto|]. destruct (ts_insert String.eqb (h_map h) s) as [m r]. destruct (_ && _); [discriminate|]. injection H as <- <-. reflexivity.
  Qed.
  Lemma accepting_sb : forall h q h', set_accepting h q = Some h' -> h_sb h' = h_sb h.
  Proof. intros h q h' H. unfold set_accepting in H. destruct (q <? a_size (h_aut h)); [|discriminate]. injection H as <-. reflexivity. Qed.
  Lemma edge_sb : forall h h', ah_edge h = Some h' -> h_sb h' = h_sb h.
  Proof.
    intros h h' H. unfold ah_edge in H. destruct (h_from h) as [f|]; [|discriminate]. destruct (h_to h) as [t|]; [|discriminate]. cbn [obind] in H. destruct (String.eqb (h_label h) "").
    - destruct (a_add_edge _ _ _ _ _); [|discriminate]. cbn in H. injection H as <-. reflexivity.
    - destruct (insert_label String.eqb (h_pda h) (h_label h)) as [T l]. destruct (a_add_edge _ _ _ _ _); [|discriminate]. cbn in H. injection H as <-. reflexivity.
  Qed.
  Lemma aleaf1 : forall h e, starts e = false -> ends e = false -> akeeps h (step h e).
  Proof.
    assert (N : forall h v f, (forall h' q, h_sb h' = h_sb h -> akeeps h (f h' q)) -> akeeps h (let (h', q) := number_state names h v in f h' q)).
    { intros h v f H. destruct (number_state names h v) as [h' q] eqn:E. apply H. eapply number_sb; eauto. }
    assert (S : forall h s f, (forall h' q, h_sb h' = h_sb h -> akeeps h (f h' q)) -> akeeps h (obind (string_state names asserts h s) (fun x => match x with None => Some Fail | Some (h', q) => f h' q end))).
    { intros h s f H. destruct (string_state names asserts h s) as [[[h' q]|]|] eqn:E; cbn [obind]; try exact Logic.I. apply H. eapply string_sb; eauto. }
    assert (D : forall h g, h_sb g = h_sb h -> akeeps h (ah_done g)). { intros h g H. apply adone1. unfold atypes. rewrite H. reflexivity. }
    assert (C : forall h h' q, h_sb h' = h_sb h -> akeeps h (obind (set_accepting h' q) (fun h'' => ah_done h''))).
    { intros h h' q H. destruct (set_accepting h' q) as [h''|] eqn:E; cbn [obind]; [|exact Logic.I]. apply D. rewrite (accepting_sb _ _ _ E). auto. }
    intros h e S1 S2. destruct e; try discriminate; cbn [ah_step]; try exact Logic.I.
    - unfold ah_unsigned. cbv zeta. destruct (cur_type (h_sb h)) as [[]|]; cbn [obind]; try exact Logic.I.
      + destruct names; [exact Logic.I|]. destruct (_ <? _); [apply D; auto|exact Logic.I].
      + apply (N h (Z.to_nat z) (fun h' q => obind (set_accepting h' q) (fun h'' => ah_done h''))). intros; apply C; auto.
      + destruct (cur_index (h_sb h)) as [[|[|[|]]]|]; cbn [obind]; try exact Logic.I.
        * apply (N h (Z.to_nat z) (fun h' q => ah_done (h_set_edge h' (h_label h') (Some q) (h_to h')))). intros; apply D; auto.
        * apply (N h (Z.to_nat z) (fun h' q => ah_done (h_set_edge h' (h_label h') (h_from h') (Some q)))). intros; apply D; auto.
    - unfold ah_string. destruct (no_context (h_sb h)); [exact Logic.I|]. destruct (cur_type (h_sb h)) as [[]|]; cbn [obind]; try exact Logic.I.
      + destruct names; [|exact Logic.I]. destruct (exists_state String.eqb (h_pda h) s); [apply D; auto|exact Logic.I].
      + apply (S h s (fun h' q => obind (set_accepting h' q) (fun h'' => ah_done h''))). intros; apply C; auto.
      + destruct (cur_index (h_sb h)) as [[|[|[|]]]|]; cbn [obind]; try exact Logic.I.
        * apply (S h s (fun h' q => ah_done (h_set_edge h' (h_label h') (Some q) (h_to h')))). intros; apply D; auto.
        * apply D; auto.
        * apply (S h s (fun h' q => ah_done (h_set_edge h' (h_label h') (h_from h') (Some q)))). intros; apply D; auto.
    - unfold ah_key. destruct (no_context (h_sb h)); [exact Logic.I|]. destruct (cur_type (h_sb h)) as [[]|]; cbn [obind]; try exact Logic.I;
        repeat match goal with |- akeeps _ (if ?b then _ else _) => destruct b end; try apply ahandle1; try exact Logic.I. reflexivity.
  Qed.
  Lemma aut_shape : forall h e t ts, atypes h = t :: ts -> t <> ax_initial -> (ends e = true -> exists t' ts', ts = t' :: ts' /\ t' <> ax_initial) ->
    match step h e with
    | Some (Go h') => if starts e then exists t', t' <> ax_initial /\ atypes h' = t' :: t :: ts else if ends e then atypes h' = ts else atypes h' = t :: ts
    | Some (Halt _) => False
    | _ => True
    end.
  Proof.
    intros h e t ts H1 H2 H3. assert (NC : no_context (h_sb h) = false) by (unfold no_context; unfold atypes in H1; destruct (sb_stack (h_sb h)); auto; discriminate).
    assert (X : forall g u cv, atypes g = t :: ts -> u <> ax_initial -> match ah_push g (u, cv) with Some (Go h') => exists t', t' <> ax_initial /\ atypes h' = t' :: t :: ts | Some (Halt _) => False | _ => True end).
    { intros g u cv E H. cbn. exists u. split; auto. unfold atypes in *. cbn. congruence. }
    destruct e; try (assert (Y := aleaf1 h); match goal with |- context [step h ?e] => specialize (Y e eq_refl eq_refl) end; cbn [starts ends]; unfold akeeps in Y; rewrite H1 in Y; exact Y); cbn [starts ends] in *; cbn [ah_step].
    - unfold ah_start_object. rewrite NC. destruct (sb_key (h_sb h)); try exact Logic.I. apply X; [auto|discriminate].
    - destruct (H3 eq_refl) as (t' & ts' & -> & HT). unfold ah_end_object. rewrite NC. unfold missing, pop_context. unfold atypes in H1. destruct (sb_stack (h_sb h)) as [|[u [nd|i]] s] eqn:E; try discriminate; cbn [obind]; auto. destruct nd; auto.
      cbn [map fst] in H1. injection H1 as -> H1. destruct s as [|[u cv] s]; [discriminate|]. cbn [map fst] in H1. injection H1 as -> H1. cbn [obind h_set_sb h_sb cur_type sb_stack]. 
      assert (D : forall g, atypes g = t' :: ts' -> match ah_done g with Some (Go h') => atypes h' = t' :: ts' | Some (Halt _) => False | _ => True end). { intros g G. assert (Z := adone1 g g eq_refl). unfold akeeps in Z. rewrite G in Z. exact Z. }
      destruct t'; try congruence; apply D; unfold atypes; cbn; congruence.
    - unfold ah_start_array. rewrite NC. destruct (cur_type (h_sb h)) as [u|]; cbn [obind]; auto. destruct u; try (apply X; [auto|discriminate]); destruct (sb_key (h_sb h)); try exact Logic.I; apply X; auto; discriminate.
    - unfold ah_end_array. rewrite NC. destruct (cur_type (h_sb h)) as [u|]; cbn [obind]; auto.
      assert (Y : forall g, (match u with ax_edge => ah_edge h | _ => Some h end) = Some g -> h_sb g = h_sb h). { intros g G. destruct u; try (injection G as <-; reflexivity). apply edge_sb; auto. }
      destruct (match u with ax_edge => ah_edge h | _ => Some h end) as [g|]; cbn [obind]; auto. specialize (Y g eq_refl). rewrite Y. unfold pop_context. unfold atypes in H1. destruct (sb_stack (h_sb h)) as [|[u' cv] s]; [discriminate|]. cbn [obind]. cbn [map fst] in H1. injection H1 as -> <-.
      match goal with |- context [ah_done ?k] => assert (Z := adone1 k k eq_refl) end. unfold akeeps in Z. exact Z.
  Qed.
  (** A run over the value of "P-automaton" stops only at its end. *)
  Lemma aut_halts : forall m h h' need s, h_sb h = mk_sb ((ax_initial, CObj need) :: s) ak_aut -> run step (events (JObj m)) h = Some (Halt h') -> halts step (events (JObj m)) h h'.
  Proof.
    intros m h h' need s HB H. cbn [events] in *. set (body := flat_map _ m) in *. assert (N := nested_members _ _ step step atypes ax_initial (fun _ _ _ _ _ _ _ => eq_refl) aut_shape m). fold body in N.
    cbn [run ah_step] in H. unfold ah_start_object in H. rewrite HB in H. cbn [no_context sb_stack sb_key] in H. unfold ah_push in H. set (h1 := h_set_sb h _) in H.
    assert (T1 : atypes h1 = ax_aut :: ax_initial :: map fst s) by (unfold h1, atypes; cbn; rewrite HB; reflexivity). rewrite run_app in H. destruct (N h1 _ _ T1 ltac:(discriminate)) as [_ N2].
    destruct (run step body h1) as [[h2|h2|]|] eqn:E; try discriminate; [|destruct N2]. cbn [run] in H. exists (EStartObj :: body), EEndObj, h2. split; auto. split.
    - cbn [run ah_step]. unfold ah_start_object. rewrite HB. cbn [no_context sb_stack sb_key]. unfold ah_push. exact E.
    - destruct (step h2 EEndObj) as [[h3|h3|]|]; try discriminate. auto.
  Qed.
End EAut.

(** ** Which states are known *)
Section Known.
  Variables (names : bool) (k1 k2 : sref -> bool).
  Hypothesis KN : forall x, k1 (SName x) = k2 (SName x).
  Hypothesis KV : names = false -> forall v, k1 (SNum v) = k2 (SNum v).
  Lemma initial_ext : forall j, initial_ok names k1 j = initial_ok names k2 j.
  Proof.
    intros j. destruct j; auto. cbn. induction l as [|x l IH]; cbn; auto. rewrite IH. f_equal. destruct x; auto; [|rewrite KN; auto]. destruct names; auto. rewrite KV; auto.
  Qed.
  Lemma initials_ext : forall l, forallb (initial_ok names k1) l = forallb (initial_ok names k2) l.
  Proof. induction l as [|x l IH]; cbn [forallb]; auto. rewrite IH, initial_ext. auto. Qed.
  Lemma padoc_ext : forall oi j, padoc_of names k1 oi j = padoc_of names k2 oi j.
  Proof. intros oi j. destruct j; auto. unfold padoc_of. rewrite initials_ext. reflexivity. Qed.
  Lemma ref_mode_ext : forall m j, ref_mode names k1 m j -> ref_mode names k2 m j.
  Proof. intros m j. destruct j; auto. cbn. rewrite KN. auto. Qed.
  Lemma regular_pa_ext : forall j, regular_pa names k1 j -> regular_pa names k2 j.
  Proof.
    intros j [m H]. exists m. destruct j; auto. eapply Forall_impl; [|exact H]. intros [k x]. unfold regular_member. cbn [fst snd]. destruct x; auto. destruct (String.eqb k "accepting").
    - apply Forall_impl. apply ref_mode_ext.
    - destruct (String.eqb k "edges"); auto. apply Forall_impl. intros y. unfold regular_edge. destruct y; auto. destruct l0 as [|a [|b [|c r]]]; auto. intros (A & B & C & D). ands; auto; apply ref_mode_ext; auto.
  Qed.
  Lemma adoc_ext : forall oi j, adoc_of names k1 oi j = adoc_of names k2 oi j.
  Proof. intros oi j. destruct j; auto. destruct m as [|[k p] [|]]; auto. cbn. rewrite padoc_ext. reflexivity. Qed.
  Lemma regular_adoc_ext : forall j, regular_adoc names k1 j -> regular_adoc names k2 j.
  Proof. intros j H. destruct j; auto. cbn in *. eapply Forall_impl; [|exact H]. intros [k p] X Y. apply regular_pa_ext. auto. Qed.
End Known.

(** ** The type *)
Definition tstart (need : list nat) (k : tkey) : sbase tctx tkey := mk_sb [(tx_initial, CObj need)] k.
Lemma weight_run : forall v h need, regular_weight v -> th_sb h = tstart need tk_weight_type -> th_array h = false ->
  match weight_type v with
  | Some w => exists h', run th_step (events v) h = Some (Go h') /\ th_sb h' = tstart need tk_none /\ th_names h' = th_names h /\ th_kind h' = w
  | None => run th_step (events v) h = Some Fail
  end.
Proof.
  intros v h need HR HB HA. destruct h as [sb w n ar]. cbn [th_sb th_array] in *. subst sb ar. destruct v as [|b|z| |s|l|m]; try reflexivity.
  - cbn. destruct (z <? 0)%Z; reflexivity.
  - cbn in HR |- *. unfold number_kind in *. unfold th_kind. destruct (String.eqb_spec s "none").
    + subst s. eexists. split; [reflexivity|]. repeat split.
    + destruct (String.eqb s "uint") eqn:E1; [|destruct (String.eqb s "int") eqn:E2; [|congruence]]; eexists; (split; [reflexivity|]); cbn; rewrite E1; try rewrite E2; repeat split.
  - destruct HR as (s & -> & HR). cbn in HR |- *. unfold number_kind in *. unfold th_kind.
    destruct (String.eqb s "uint") eqn:E1; [|destruct (String.eqb s "int") eqn:E2; [|congruence]]; eexists; (split; [reflexivity|]); cbn; rewrite E1; try rewrite E2; repeat split.
Qed.
Lemma names_run : forall v h need, th_sb h = tstart need tk_state_names ->
  match v with
  | JBool n => exists h', run th_step (events v) h = Some (Go h') /\ th_sb h' = tstart need tk_none /\ th_names h' = n /\ th_kind h' = th_kind h /\ th_array h' = th_array h
  | _ => run th_step (events v) h = Some Fail
  end.
Proof.
  intros v h need HB. destruct h as [sb w n ar]. cbn [th_sb] in *. subst sb. destruct v as [|b|z| |s|l|m]; try reflexivity.
  - eexists. split; [reflexivity|]. repeat split.
  - cbn. destruct (z <? 0)%Z; reflexivity.
Qed.
Definition tmem (st : list nat * bool * wkind) (e : string * json) : option (list nat * bool * wkind) :=
  let '(need, n, w) := st in
  if String.eqb (fst e) "state-names"
  then if memb 1 need then match snd e with JBool b => Some (filter (fun f => negb (Nat.eqb f 1)) need, b, w) | _ => None end else None
  else if String.eqb (fst e) "weight-type"
  then if memb 2 need then w' <- weight_type (snd e) ;; Some (filter (fun f => negb (Nat.eqb f 2)) need, n, w') else None
  else None.
Definition trel (st : list nat * bool * wkind) (h : th) : Prop :=
  let '(need, n, w) := st in th_sb h = tstart need tk_none /\ th_names h = n /\ th_kind h = w /\ (In 2 need -> th_array h = false).
Lemma tmember_run : forall e st h, (String.eqb (fst e) "weight-type" = true -> regular_weight (snd e)) -> trel st h ->
  match tmem st e with
  | Some st' => exists h', run th_step (EKey (fst e) :: events (snd e)) h = Some (Go h') /\ trel st' h'
  | None => run th_step (EKey (fst e) :: events (snd e)) h = Some Fail
  end.
Proof.
  intros [k v] [[need n] w] h HR (B & N & K & A). cbn [fst snd] in *. unfold tmem. cbn [fst snd run th_step]. unfold th_key, th_handle. rewrite B. cbn [no_context tstart sb_stack cur_type obind handle_key].
  destruct (String.eqb k "state-names") eqn:E1.
  - destruct (memb 1 need) eqn:E; [|reflexivity]. set (h2 := th_set_sb h _). assert (X := names_run v h2 (filter (fun f => negb (Nat.eqb f 1)) need) eq_refl). destruct v; auto. destruct X as (h' & X1 & X2 & X3 & X4 & X5). exists h'. split; auto.
    split; auto. split; auto. split; [rewrite X4; exact K|]. intros H. rewrite X5. apply A. apply filter_In in H. apply H.
  - destruct (String.eqb k "weight-type") eqn:E2; [|reflexivity]. destruct (memb 2 need) eqn:E; [|reflexivity]. set (h2 := th_set_sb h _).
    assert (A2 : th_array h2 = false). { apply A. apply memb_In. auto. }
    assert (X := weight_run v h2 (filter (fun f => negb (Nat.eqb f 2)) need) (HR eq_refl) eq_refl A2). destruct (weight_type v) as [w'|]; cbn [obind]; auto. destruct X as (h' & X1 & X2 & X3 & X4). exists h'. split; auto.
    split; auto. split; [rewrite X3; exact N|]. split; auto. intros H. apply filter_In in H. destruct H as [_ H]. discriminate.
Qed.
Lemma tmembers_run : forall m st h, Forall (fun e => String.eqb (fst e) "weight-type" = true -> regular_weight (snd e)) m -> trel st h ->
  match ofold tmem m st with
  | Some st' => exists h', run th_step (flat_map (fun e => EKey (fst e) :: events (snd e)) m) h = Some (Go h') /\ trel st' h'
  | None => run th_step (flat_map (fun e => EKey (fst e) :: events (snd e)) m) h = Some Fail
  end.
Proof.
  induction m as [|e m IH]; intros st h HR H; [cbn; eauto|]. inversion_clear HR as [|? ? He Hm]. cbn [ofold flat_map]. rewrite run_app. assert (X := tmember_run e st h He H). destruct (tmem st e) as [st'|]; cbn [obind]; [|rewrite X; reflexivity].
  destruct X as (h' & -> & X). apply IH; auto.
Qed.
Lemma type_fold : forall m, type_of (JObj m) = match ofold tmem m ([1; 2], false, WVoid) with Some ([], n, w) => Some (n, w) | _ => None end.
Proof.
  assert (SW : forall k, String.eqb k "state-names" = true -> String.eqb k "weight-type" = false). { intros k K. apply String.eqb_eq in K. subst k. reflexivity. }
  assert (Full : forall m n w, m <> [] -> ofold tmem m ([], n, w) = None).
  { intros [|[k v] m] n w H; [congruence|]. cbn. destruct (String.eqb k "state-names"); [reflexivity|]. destruct (String.eqb k "weight-type"); reflexivity. }
  intros [|[k a] [|[k' b] m]]; [reflexivity| |].
  - cbn. destruct (String.eqb k "state-names"); [destruct a; reflexivity|]. destruct (String.eqb k "weight-type"); [|reflexivity]. cbn. destruct (weight_type a); reflexivity.
  - assert (X : ofold tmem ((k, a) :: (k', b) :: m) ([1; 2], false, WVoid) = obind (if String.eqb k "state-names" && String.eqb k' "weight-type" then match a with JBool n => w <- weight_type b ;; Some (n, w) | _ => None end
      else if String.eqb k "weight-type" && String.eqb k' "state-names" then match b with JBool n => w <- weight_type a ;; Some (n, w) | _ => None end else None) (fun x => ofold tmem m ([], fst x, snd x))).
    { cbn [ofold]. unfold tmem at 1. cbn [fst snd]. destruct (String.eqb k "state-names") eqn:E1.
      - rewrite (SW k E1). cbn [memb existsb Nat.eqb orb filter negb andb]. destruct a as [|n|z| |s|l|m']; cbn [obind]; try (destruct (String.eqb k' "weight-type"); reflexivity). unfold tmem at 1. cbn [fst snd memb existsb Nat.eqb orb filter negb].
        destruct (String.eqb k' "state-names") eqn:E2; [rewrite (SW k' E2); reflexivity|]. destruct (String.eqb k' "weight-type"); [|reflexivity]. destruct (weight_type b); reflexivity.
      - cbn [andb]. destruct (String.eqb k "weight-type"); [|reflexivity]. cbn [memb existsb Nat.eqb orb filter negb andb]. destruct (weight_type a) as [w|]; cbn [obind].
        + unfold tmem at 1. cbn [fst snd memb existsb Nat.eqb orb filter negb]. destruct (String.eqb k' "state-names").
          * destruct b; reflexivity.
          * destruct (String.eqb k' "weight-type"); reflexivity.
        + destruct (String.eqb k' "state-names"); [destruct b; reflexivity|reflexivity]. }
    rewrite X. cbn [type_of]. destruct m as [|e m].
    + destruct (if String.eqb k "state-names" && _ then _ else _) as [[n w]|]; reflexivity.
    + destruct (if String.eqb k "state-names" && _ then _ else _) as [[n w]|]; cbn [obind]; [|reflexivity]. rewrite Full by discriminate. reflexivity.
Qed.
Lemma type_run : forall t, regular_type t ->
  match type_of t with
  | Some (n, w) => exists h', halts th_step (events t) th0 h' /\ th_names h' = n /\ th_kind h' = w
  | None => run th_step (events t) th0 = Some Fail
  end.
Proof.
  intros t HR. destruct t as [|b|z| |s|l|m]; try reflexivity.
  - cbn in HR |- *. destruct (Z.ltb_spec z 0); [reflexivity|lia].
  - rewrite type_fold. set (h1 := mk_th (tstart [1; 2] tk_none) "" false false). assert (R : forall es, run th_step (EStartObj :: es) th0 = run th_step es h1) by reflexivity.
    assert (T1 : trel ([1; 2], false, WVoid) h1) by (cbn; auto). assert (X := tmembers_run m _ h1 HR T1). clearbody h1. cbn [events]. rewrite R, run_app.
    assert (E : forall h need n w, trel (need, n, w) h -> th_step h EEndObj = match need with [] => Some (Halt (th_set_sb h (mk_sb [] tk_none))) | _ => Some Fail end).
    { intros h need n w (B & _). cbn [th_step]. unfold th_end_object. rewrite B. destruct need; reflexivity. }
    destruct (ofold tmem m ([1; 2], false, WVoid)) as [[[need n] w]|]; [|rewrite X; reflexivity]. destruct X as (h2 & RX & X). assert (E2 := E h2 need n w X). destruct need as [|x need].
    + exists (th_set_sb h2 (mk_sb [] tk_none)). split; [|split; [cbn; apply X|cbn; apply X]]. exists (EStartObj :: flat_map (fun e => EKey (fst e) :: events (snd e)) m), EEndObj, h2. split; auto. split; auto. rewrite R. auto.
    + rewrite RX. cbn [run]. rewrite E2. reflexivity.
Qed.

(** ** The dispatch *)
Section Inst.
  Variables (asserts : bool) (no_opl : nat) (wenc : list Z -> Z) (ord : nat -> list nat -> list nat).
  Notation step := (i_step asserts no_opl wenc ord).
  Notation call := (callback asserts no_opl wenc ord).
  Lemma sub_run : forall A (st : A -> event -> option (hres A)) (put : A -> ih), (forall a e, step (put a) e = dispatch asserts no_opl wenc ord put (st a e)) ->
    forall es a, match run st es a with
    | Some (Go a') => run step es (put a) = Some (Go (put a'))
    | Some Fail => run step es (put a) = Some Fail
    | None => run step es (put a) = None
    | Some (Halt _) => True
    end.
  Proof.
    intros A st put H. induction es as [|e es IH]; intros a; cbn [run]; auto. rewrite H. destruct (st a e) as [[a'|a'|]|]; cbn [dispatch]; auto. apply IH.
  Qed.
  Lemma sub_halts : forall A (st : A -> event -> option (hres A)) (put : A -> ih), (forall a e, step (put a) e = dispatch asserts no_opl wenc ord put (st a e)) ->
    forall es a a' h, halts st es a a' -> call (put a') = Some (Go h) -> run step es (put a) = Some (Go h).
  Proof.
    intros A st put H es a a' h (es0 & e & a0 & -> & H1 & H2) HC. rewrite run_app. assert (X := sub_run A st put H es0 a). rewrite H1 in X. rewrite X. cbn [run]. rewrite H, H2. cbn [dispatch]. rewrite HC. reflexivity.
  Qed.

  Definition bad_run (x : option (hres ih)) : Prop := x = Some Fail \/ (asserts = true /\ x = None).
  Definition sbi (k : nat) : sbase ictx ikey := mk_sb [(ix_instance, CArr k); (ix_initial, CObj [])] ik_instance.
  Definition cf0 (n : bool) (w : wkind) : jcfg := mk_jcfg n w false asserts no_opl wenc.
  (** What the parser has read. *)
  Definition inst_read (i : idoc) (T2 : tp) (A1 A2 : aut) : Prop :=
    exists T T1, let cf := cf0 (id_names i) (id_weight i) in
      doc_shape (id_names i) (id_pda i) /\ numbered (id_names i) (id_pda i) /\ eff cf tp_empty T (doc_calls cf (id_pda i)) /\
      read_as (id_names i) ord T (id_first i) T1 A1 /\ read_as (id_names i) ord T1 (id_second i) T2 A2.
  Definition tail_ok (r : list event) : Prop := r = [EEndObj] \/ exists k r', r = EKey k :: r'.
  Lemma tail_members : forall m, tail_ok (flat_map (fun e => EKey (fst e) :: events (snd e)) m ++ [EEndObj])%list.
  Proof. intros [|e m]; [left; reflexivity|right; cbn; eauto]. Qed.

  (** The elements of the array. *)
  Lemma type_elem : forall t pd iT f s, regular_type t ->
    match type_of t with
    | Some (n, w) => exists ty, th_names ty = n /\ th_kind ty = w /\
        run step (events t) (mk_ih (sbi 1) CurType th0 pd iT f s) = Some (Go (mk_ih (sbi 2) CurPda ty (Some (ph0 (i_cf asserts no_opl wenc ty))) iT f s))
    | None => run step (events t) (mk_ih (sbi 1) CurType th0 pd iT f s) = Some Fail
    end.
  Proof.
    intros t pd iT f s HR. set (put := fun a => mk_ih (sbi 1) CurType a pd iT f s). assert (HP : forall a e, step (put a) e = dispatch asserts no_opl wenc ord put (th_step a e)) by reflexivity.
    assert (X := type_run t HR). destruct (type_of t) as [[n w]|].
    - destruct X as (ty & X1 & X2 & X3). exists ty. split; auto. split; auto. apply (sub_halts _ _ put HP _ th0 ty); auto.
    - assert (Y := sub_run _ _ put HP (events t) th0). rewrite X in Y. exact Y.
  Qed.
  Lemma pda_elem : forall p ty iT f s, regular_pda (th_kind ty) p ->
    match pda_of (th_names ty) (th_kind ty) asserts p with
    | Some d => exists T pd, eff (cf0 (th_names ty) (th_kind ty)) tp_empty T (doc_calls (cf0 (th_names ty) (th_kind ty)) d) /\
        forall a, ah0 true ord T = Some a -> run step (events p) (mk_ih (sbi 2) CurPda ty (Some (ph0 (i_cf asserts no_opl wenc ty))) iT f s) = Some (Go (mk_ih (sbi 3) CurFirst ty pd (Some T) (Some a) s))
    | None => bad_run (run step (events p) (mk_ih (sbi 2) CurPda ty (Some (ph0 (i_cf asserts no_opl wenc ty))) iT f s))
    end.
  Proof.
    intros p ty iT f s HR. set (put := fun a => mk_ih (sbi 2) CurPda ty (Some a) iT f s). assert (HP : forall a e, step (put a) e = dispatch asserts no_opl wenc ord put (ph_step (i_cf asserts no_opl wenc ty) a e)) by reflexivity.
    assert (X := epda_run (th_names ty) (th_kind ty) asserts no_opl wenc p HR). destruct (pda_of (th_names ty) (th_kind ty) asserts p) as [d|].
    - destruct X as (T & p' & X1 & X2 & X3). exists T, (Some p'). split; auto. intros a Ha. apply (sub_halts _ _ put HP _ (ph0 (i_cf asserts no_opl wenc ty)) p'); [exact X2|]. unfold callback, put. cbn [i_sb sbi cur_index sb_stack obind i_pda]. rewrite X3, Ha. reflexivity.
    - assert (Y := sub_run _ _ put HP (events p) (ph0 (i_cf asserts no_opl wenc ty))). unfold i_cf in Y. destruct X as [X|[XA X]]; rewrite X in Y; [left|right; split; auto]; exact Y.
  Qed.
  Definition aut_facts (T : tp) : Prop := length (t_states T) <= pd_n (t_rules T) /\ NoDup (t_labels T) /\ pd_nlab (t_rules T) = length (t_labels T).
  Lemma first_elem : forall j ty pd s T a, aut_facts T -> ah0 true ord T = Some a -> regular_pa (th_names ty) (known_in T) j ->
    match padoc_of (th_names ty) (known_in T) true j with
    | Some D => exists h', read_as (th_names ty) ord T D (h_pda h') (h_aut h') /\
        forall b, ah0 true ord (h_pda h') = Some b -> run step (events j) (mk_ih (sbi 3) CurFirst ty pd (Some T) (Some a) s) = Some (Go (mk_ih (sbi 4) CurSecond ty pd (Some (h_pda h')) (Some h') (Some b)))
    | None => run step (events j) (mk_ih (sbi 3) CurFirst ty pd (Some T) (Some a) s) = Some Fail
    end.
  Proof.
    intros j ty pd s T a (F1 & F2 & F3) Ha HR. set (put := fun a => mk_ih (sbi 3) CurFirst ty pd (Some (h_pda a)) (Some a) s). assert (HP : forall a e, step (put a) e = dispatch asserts no_opl wenc ord put (ah_step (th_names ty) true asserts a e)) by reflexivity.
    destruct (start_ok (th_names ty) true ord T F1 F2 F3) as (a' & Ea & Pa & Ba). rewrite Ha in Ea. injection Ea as <-. assert (PT : h_pda a = T). { unfold ah0 in Ha. destruct (aut_special _ _ _ _); [|discriminate]. cbn in Ha. injection Ha as <-. reflexivity. }
    assert (X := pa_run (th_names ty) true asserts ord T F1 j a [1] [] HR Pa Ba). assert (E0 : mk_ih (sbi 3) CurFirst ty pd (Some T) (Some a) s = put a) by (unfold put; rewrite PT; auto). rewrite E0. destruct (padoc_of (th_names ty) (known_in T) true j) as [D|] eqn:EJ.
    - destruct X as (h' & mo & X1 & _ & X3). exists h'. split; [eapply P_read; eauto|]. intros b Hb. destruct j as [| | | | | |m]; try discriminate. apply (sub_halts _ _ put HP _ a h'); [eapply aut_halts; eauto|]. unfold callback, put. cbn [i_sb sbi cur_index sb_stack obind i_T]. rewrite Hb. reflexivity.
    - assert (Y := sub_run _ _ put HP (events j) a). rewrite X in Y. exact Y.
  Qed.
  Lemma second_elem : forall j ty pd f T a, aut_facts T -> ah0 true ord T = Some a -> regular_pa (th_names ty) (known_in T) j ->
    match padoc_of (th_names ty) (known_in T) true j with
    | Some D => exists h', read_as (th_names ty) ord T D (h_pda h') (h_aut h') /\
        run step (events j) (mk_ih (sbi 4) CurSecond ty pd (Some T) f (Some a)) = Some (Go (mk_ih (sbi 5) CurSelf ty pd (Some (h_pda h')) f (Some h')))
    | None => run step (events j) (mk_ih (sbi 4) CurSecond ty pd (Some T) f (Some a)) = Some Fail
    end.
  Proof.
    intros j ty pd s T a (F1 & F2 & F3) Ha HR. set (put := fun a => mk_ih (sbi 4) CurSecond ty pd (Some (h_pda a)) s (Some a)). assert (HP : forall a e, step (put a) e = dispatch asserts no_opl wenc ord put (ah_step (th_names ty) true asserts a e)) by reflexivity.
    destruct (start_ok (th_names ty) true ord T F1 F2 F3) as (a' & Ea & Pa & Ba). rewrite Ha in Ea. injection Ea as <-. assert (PT : h_pda a = T). { unfold ah0 in Ha. destruct (aut_special _ _ _ _); [|discriminate]. cbn in Ha. injection Ha as <-. reflexivity. }
    assert (X := pa_run (th_names ty) true asserts ord T F1 j a [1] [] HR Pa Ba). assert (E0 : mk_ih (sbi 4) CurSecond ty pd (Some T) s (Some a) = put a) by (unfold put; rewrite PT; auto). rewrite E0. destruct (padoc_of (th_names ty) (known_in T) true j) as [D|] eqn:EJ.
    - destruct X as (h' & mo & X1 & _ & X3). exists h'. split; [eapply P_read; eauto|]. destruct j as [| | | | | |m]; try discriminate. apply (sub_halts _ _ put HP _ a h'); [eapply aut_halts; eauto|]. reflexivity.
    - assert (Y := sub_run _ _ put HP (events j) a). rewrite X in Y. exact Y.
  Qed.
  (** The array ends too early: nothing can follow. *)
  Lemma short_type : forall pd iT f s r, run step (EEndArr :: r) (mk_ih (sbi 1) CurType th0 pd iT f s) = Some Fail.
  Proof. reflexivity. Qed.
  Lemma short_pda : forall ty iT f s r, tail_ok r -> run step (EEndArr :: r) (mk_ih (sbi 2) CurPda ty (Some (ph0 (i_cf asserts no_opl wenc ty))) iT f s) = Some Fail.
  Proof. intros ty iT f s r [->|(k & r' & ->)]; reflexivity. Qed.
  Lemma short_aut : forall c ty pd T r f s a, tail_ok r -> h_sb a = mk_sb [a_initial_context] ak_aut -> (c = CurFirst /\ f = Some a \/ c = CurSecond /\ s = Some a) ->
    forall k, run step (EEndArr :: r) (mk_ih (sbi k) c ty pd T f s) = Some Fail.
  Proof.
    intros c ty pd T r f s a HT HB H k. destruct H as [[-> ->]|[-> ->]]; cbn [run]; unfold i_step at 1; cbn [i_cur i_first i_second obind i_type ah_step]; unfold ah_end_array; rewrite HB; cbn [no_context sb_stack cur_type obind pop_context a_initial_context ah_done dispatch]; rewrite HB;
      cbn [sb_key]; destruct HT as [->|(x & r' & ->)]; reflexivity.
  Qed.
  Lemma start_sb : forall T a, ah0 true ord T = Some a -> h_sb a = mk_sb [a_initial_context] ak_aut.
  Proof. intros T a Ha. unfold ah0 in Ha. destruct (aut_special _ _ _ _); [|discriminate]. cbn in Ha. injection Ha as <-. reflexivity. Qed.
  Lemma read_facts : forall names T D T' A, aut_facts T -> read_as names ord T D T' A -> aut_facts T'.
  Proof. intros names T D T' A (F1 & F2 & F3) R. destruct (ra_pda _ _ _ _ _ _ R) as [B1 B2 B3 B4]. unfold aut_facts, pd_n in *. rewrite B1, B2. auto. Qed.
  Lemma doc_facts : forall cf d T, eff cf tp_empty T (doc_calls cf d) -> aut_facts T.
  Proof. intros cf d T HE. destruct (T_good cf d T HE) as [cs HI]. split; [apply HI|]. split; apply HI. Qed.
  Lemma known_same : forall T T' s, same_pda T T' -> known_in T' s = known_in T s.
  Proof. intros T T' s [B1 B2 _ _]. destruct s; cbn; unfold exists_state, pd_n; [rewrite B1|rewrite B2]; reflexivity. Qed.
  Lemma start_ex : forall T, exists a, ah0 true ord T = Some a.
  Proof. intros T. unfold ah0, aut_special. cbn. eauto. Qed.

  Definition result (x : option (hres ih)) : option (option (tp * aut * aut)) :=
    match x with
    | None => None
    | Some (Go h) => T <- i_T h ;; a <- i_first h ;; b <- i_second h ;; Some (Some (T, h_aut a, h_aut b))
    | Some _ => Some None
    end.
  Definition bad_result (x : option (option (tp * aut * aut))) : Prop := x = Some None \/ (asserts = true /\ x = None).
  Lemma bad_ok : forall x, bad_run x -> bad_result (result x).
  Proof. intros x [->|[H ->]]; [left|right]; auto. Qed.
  Lemma fail_ok : forall x, x = Some Fail -> bad_result (result x).
  Proof. intros x ->. left. reflexivity. Qed.
  (** The last elements. *)
  Lemma rest_run : forall l m h, i_cur h = CurSelf -> i_sb h = sbi 5 -> no_arrays l ->
    run step (flat_map events l ++ EEndArr :: flat_map (fun e => EKey (fst e) :: events (snd e)) m ++ [EEndObj])%list h =
      match l, m with [], [] => Some (Go (i_set_sb h (mk_sb [] ik_none))) | _, _ => Some Fail end.
  Proof.
    intros l m [sb c ty pd T f s] HC HB HA. cbn [i_cur i_sb] in *. subst c sb. destruct l as [|x l].
    - destruct m as [|[k v] m]; [reflexivity|]. cbn. destruct (String.eqb k "instance"); reflexivity.
    - inversion_clear HA as [|? ? Hx _]. destruct x as [|b|z| |y|a|o]; try reflexivity; [|exfalso; apply Hx; exact Logic.I]. cbn. destruct (z <? 0)%Z; reflexivity.
  Qed.
  Lemma inst_run : forall j, regular_inst asserts j ->
    match inst_of asserts j with
    | Some i => exists T2 A1 A2, parse_inst asserts no_opl wenc ord j = Some (Some (T2, A1, A2)) /\ inst_read i T2 A1 A2
    | None => bad_result (parse_inst asserts no_opl wenc ord j)
    end.
  Proof.
    intros j HR. change (parse_inst asserts no_opl wenc ord j) with (result (run step (events j) ih0)).
    destruct j as [|b|z| |s|l|m]; try (left; reflexivity); [cbn; destruct (z <? 0)%Z; left; reflexivity|].
    destruct m as [|[k v] m]; [left; reflexivity|]. cbn [events flat_map fst snd].
    set (rest := (flat_map (fun e => EKey (fst e) :: events (snd e)) m ++ [EEndObj])%list). assert (TO : tail_ok rest) by apply tail_members.
    change (EStartObj :: ((EKey k :: events v) ++ flat_map (fun e => EKey (fst e) :: events (snd e)) m) ++ [EEndObj])%list with (EStartObj :: EKey k :: ((events v ++ flat_map (fun e => EKey (fst e) :: events (snd e)) m) ++ [EEndObj]))%list.
    rewrite <- app_assoc. fold rest.
    assert (NI : String.eqb k "instance" = false -> inst_of asserts (JObj ((k, v) :: m)) = None).
    { intros E. cbn. rewrite E. destruct v as [| | | | |l|]; auto; destruct m; auto. destruct l as [|a [|b [|c [|d [|]]]]]; auto. destruct l as [|a [|b [|c [|d [|]]]]]; auto. }
    destruct (String.eqb k "instance") eqn:EK.
    2: { rewrite NI by auto. apply fail_ok. cbn. rewrite EK. reflexivity. }
    assert (R0 : forall es, run step (EStartObj :: EKey k :: es) ih0 = run step es (mk_ih (mk_sb [(ix_initial, CObj [])] ik_instance) CurSelf th0 None None None None)). { intros es. cbn. rewrite EK. reflexivity. }
    rewrite R0. destruct v as [|b|z| |s|l|o]; try (left; reflexivity); [cbn; destruct (z <? 0)%Z; left; reflexivity|].
    cbn [events app]. rewrite <- app_assoc. cbn [app]. change (run step (EStartArr :: ?es) _) with (run step es (mk_ih (sbi 1) CurType th0 None None None None)).
    (* the type *)
    destruct l as [|t l]; [left; reflexivity|]. cbn [flat_map]. rewrite <- app_assoc, run_app. cbn [regular_inst] in HR. specialize (HR EK). destruct HR as [HT HR].
    assert (XT := type_elem t None None None None HT). cbn [inst_of]. rewrite EK.
    destruct (type_of t) as [[n w]|] eqn:ET.
    2: { rewrite XT. cbn [obind]. destruct l as [|? [|? [|? [|]]]], m; left; reflexivity. }
    destruct XT as (ty & TN & TK & ->). specialize (HR n w eq_refl). cbn [obind fst snd].
    (* the pushdown automaton *)
    destruct l as [|p l]; [cbn [flat_map app]; rewrite short_pda by auto; destruct m; left; reflexivity|]. cbn [flat_map]. rewrite <- app_assoc, run_app. destruct HR as [HP HR].
    assert (XP := pda_elem p ty None None None). rewrite TN, TK in XP. specialize (XP HP). unfold parts_of. destruct (pda_of n w asserts p) as [d|] eqn:EP.
    2: { cbn [obind]. assert (Y : bad_run (match run step (events p) (mk_ih (sbi 2) CurPda ty (Some (ph0 (i_cf asserts no_opl wenc ty))) None None None) with Some (Go h') => run step (flat_map events l ++ EEndArr :: rest) h' | r => r end)).
         { destruct XP as [->|[? ->]]; [left|right]; auto. }
         apply bad_ok in Y. destruct l as [|? [|? [|]]], m; exact Y. }
    destruct XP as (T & pd & HE & XP). destruct (start_ex T) as [a Ha]. rewrite (XP a Ha). specialize (HR d eq_refl). destruct HR as [HNum HR]. cbn [obind].
    assert (DS : doc_shape n d) by (eapply pda_of_shape; eauto). assert (KD := known_doc (cf0 n w) d T DS HE HNum). cbn [cf0 cf_names] in KD. destruct KD as [KN KV].
    assert (F0 := doc_facts _ _ _ HE).
    (* the first automaton *)
    destruct l as [|a1 l]; [cbn [flat_map app]; rewrite (short_aut _ _ _ _ _ _ _ a) by (auto; eapply start_sb; eauto); destruct m; left; reflexivity|]. cbn [flat_map]. rewrite <- app_assoc, run_app. destruct HR as [HA1 HR].
    assert (HA1' : regular_pa (th_names ty) (known_in T) a1). { rewrite TN. apply (regular_pa_ext n (doc_state n d) (known_in T)); auto. }
    assert (X1 := first_elem a1 ty pd None T a F0 Ha HA1'). rewrite TN, (padoc_ext n (known_in T) (doc_state n d) KN KV) in X1.
    destruct (padoc_of n (doc_state n d) true a1) as [D1|] eqn:E1.
    2: { rewrite X1. cbn [obind]. destruct l as [|? [|]], m; left; reflexivity. }
    destruct X1 as (g1 & RA1 & X1). destruct (start_ex (h_pda g1)) as [b Hb]. rewrite (X1 b Hb). cbn [obind].
    assert (F1 := read_facts _ _ _ _ _ F0 RA1).
    (* the second automaton *)
    destruct l as [|a2 l]; [cbn [flat_map app]; rewrite (short_aut _ _ _ _ _ _ _ b) by (auto; eapply start_sb; eauto); destruct m; left; reflexivity|]. cbn [flat_map]. rewrite <- app_assoc, run_app. destruct HR as [HA2 HR].
    assert (SP := ra_pda _ _ _ _ _ _ RA1). assert (KN2 : forall x, known_in (h_pda g1) (SName x) = doc_state n d (SName x)) by (intros x; rewrite (known_same T); auto).
    assert (KV2 : n = false -> forall v, known_in (h_pda g1) (SNum v) = doc_state n d (SNum v)) by (intros Hn v; rewrite (known_same T); auto).
    assert (HA2' : regular_pa (th_names ty) (known_in (h_pda g1)) a2). { rewrite TN. apply (regular_pa_ext n (doc_state n d) (known_in (h_pda g1))); auto. }
    assert (X2 := second_elem a2 ty pd (Some g1) (h_pda g1) b F1 Hb HA2'). rewrite TN, (padoc_ext n (known_in (h_pda g1)) (doc_state n d) KN2 KV2) in X2.
    destruct (padoc_of n (doc_state n d) true a2) as [D2|] eqn:E2.
    2: { rewrite X2. destruct l, m; left; reflexivity. }
    destruct X2 as (g2 & RA2 & X2). rewrite X2. cbn [obind]. unfold rest. rewrite rest_run by auto. destruct l as [|x l]; [destruct m as [|e m]|destruct m; left; reflexivity]; [|left; reflexivity].
    exists (h_pda g2), (h_aut g1), (h_aut g2). split; [reflexivity|]. exists T, (h_pda g1). cbn [id_names id_weight id_pda id_first id_second]. ands; auto.
  Qed.

  (** ** Three documents *)
  Lemma files_run : forall names wk jp j1 j2, regular_files asserts names wk jp j1 j2 ->
    match files_of asserts names wk jp j1 j2 with
    | Some i => exists T2 A1 A2, parse_files (cf0 names wk) ord jp j1 j2 = Some (Some (T2, A1, A2)) /\ inst_read i T2 A1 A2
    | None => bad_result (parse_files (cf0 names wk) ord jp j1 j2)
    end.
  Proof.
    intros names wk jp j1 j2 [HP HR]. assert (X := doc_run (cf0 names wk) eq_refl jp HP). unfold parse_files, files_of, parts_of. cbn [cf0 cf_names cf_w cf_asserts] in X |- *. fold (cf0 names wk) in X |- *.
    destruct (doc_of names wk asserts jp) as [d|] eqn:ED; cbn [obind]; [|destruct X as [->|[H ->]]; [left|right]; auto]. destruct X as (T & -> & HE). cbn [obind]. destruct (HR d eq_refl) as (HNum & HR1 & HR2).
    assert (DS : doc_shape names d) by (eapply doc_of_shape; eauto). assert (KD := known_doc (cf0 names wk) d T DS HE HNum). cbn [cf0 cf_names] in KD. destruct KD as [KN KV]. assert (F0 := doc_facts _ _ _ HE). destruct F0 as (A & B & C).
    assert (X1 := adoc_run names false asserts ord T A B C eq_refl j1). rewrite (adoc_ext names (known_in T) (doc_state names d) KN KV) in X1. specialize (X1 ltac:(apply (regular_adoc_ext names (doc_state names d) (known_in T)); auto)).
    destruct (adoc_of names (doc_state names d) false j1) as [D1|]; cbn [obind]; [|rewrite X1; left; reflexivity]. destruct X1 as (T1 & A1 & -> & RA1). cbn [obind].
    assert (F1 := read_facts _ _ _ _ _ (conj A (conj B C)) RA1). destruct F1 as (A' & B' & C'). assert (SP := ra_pda _ _ _ _ _ _ RA1).
    assert (KN2 : forall x, known_in T1 (SName x) = doc_state names d (SName x)) by (intros x; rewrite (known_same T); auto).
    assert (KV2 : names = false -> forall v, known_in T1 (SNum v) = doc_state names d (SNum v)) by (intros Hn v; rewrite (known_same T); auto).
    assert (X2 := adoc_run names false asserts ord T1 A' B' C' eq_refl j2). rewrite (adoc_ext names (known_in T1) (doc_state names d) KN2 KV2) in X2. specialize (X2 ltac:(apply (regular_adoc_ext names (doc_state names d) (known_in T1)); auto)).
    destruct (adoc_of names (doc_state names d) false j2) as [D2|]; cbn [obind]; [|rewrite X2; left; reflexivity]. destruct X2 as (T2 & A2 & -> & RA2). cbn [obind].
    exists T2, A1, A2. split; auto. exists T, T1. cbn [id_names id_weight id_pda id_first id_second]. ands; auto.
  Qed.
End Inst.
