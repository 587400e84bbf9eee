(** The handler of pushdown automata is safe on all JSON documents: the context stack has the same shape after a value as before. *)
From Coq Require Import List Arith Lia Bool ZArith String.
From Verif Require Import Base BaseFacts PdaModel RefineModel TypedModel JsonModel JsonProof.
Import ListNotations.
Open Scope string_scope.

Section JsonInd.
  Variable P : json -> Prop.
  Hypothesis H0 : P JNull.
  Hypothesis H1 : forall b, P (JBool b).
  Hypothesis H2 : forall z, P (JNum z).
  Hypothesis H3 : P JFloat.
  Hypothesis H4 : forall s, P (JStr s).
  Hypothesis H5 : forall l, Forall P l -> P (JArr l).
  Hypothesis H6 : forall m, Forall (fun e => P (snd e)) m -> P (JObj m).
  Fixpoint json_rect' (j : json) : P j :=
    match j with
    | JNull => H0
    | JBool b => H1 b
    | JNum z => H2 z
    | JFloat => H3
    | JStr s => H4 s
    | JArr l => H5 l ((fix f l : Forall P l := match l with [] => Forall_nil _ | x :: l' => Forall_cons x (json_rect' x) (f l') end) l)
    | JObj m => H6 m ((fix f m : Forall (fun e : string * json => P (snd e)) m := match m with [] => Forall_nil _ | x :: l' => Forall_cons x (json_rect' (snd x)) (f l') end) m)
    end.
End JsonInd.

Definition is_cobj (c : cval) : bool := match c with CObj _ => true | CArr _ => false end.
Definition shape {T} (s : list (T * cval)) : list (T * bool) := map (fun c => (fst c, is_cobj (snd c))) s.

Section Safe.
  Variable cf : jcfg.
  Hypothesis no_asserts : cf_asserts cf = false.
  Notation step := (ph_step cf).
  Definition sh (h : ph) := shape (sb_stack (p_sb h)).
  (** An embedded handler has its initial context at the bottom. *)
  Definition rooted (h : ph) : Prop := cf_embedded cf = true -> sh h <> [].
  Definition keeps (h : ph) (r : option (hres ph)) : Prop := match r with None => False | Some (Go h') => sh h' = sh h | Some _ => True end.
  Lemma done_keeps : forall h h', sh h' = sh h -> keeps h (ph_done h').
  Proof.
    intros h h' H. unfold ph_done, keeps, sh in *. cbn. rewrite <- H. unfold element_done. destruct (sb_stack (p_sb h')) as [|[t [need|i]] s]; reflexivity.
  Qed.
  Lemma handle_keeps : forall flag k h t s, sh h = (t, true) :: s -> keeps h (ph_handle flag k h).
  Proof.
    intros flag k h t s E. unfold ph_handle, handle_key. unfold sh in E. destruct (sb_stack (p_sb h)) as [|[t' [need|i]] s'] eqn:ES; try discriminate.
    destruct (memb flag need); cbn; auto. unfold sh. rewrite ES. reflexivity.
  Qed.
  Ltac fin := repeat match goal with
    | |- keeps _ (ph_done _) => apply done_keeps; reflexivity
    | |- keeps _ (Some Fail) => exact I
    | |- keeps _ (if ?b then _ else _) => destruct b eqn:?
    | |- keeps _ (match ?b with _ => _ end) => destruct b eqn:?
    end.
  Lemma leaf_keeps : forall h e, match e with ENull | EBool _ | EInt _ | EUns _ | EFloat | EStr _ | EBinary => True | _ => False end -> keeps h (step h e).
  Proof.
    intros h e He. destruct e; destruct He; cbn [ph_step]; unfold ph_other, ph_integer, ph_unsigned, ph_string; rewrite ?no_asserts; cbn [andb]; fin.
  Qed.
  Lemma key_keeps : forall h k t s, sh h = (t, true) :: s -> keeps h (step h (EKey k)).
  Proof.
    intros h k t s E. cbn [ph_step]. unfold ph_key. assert (E' := E). unfold sh in E'. destruct (sb_stack (p_sb h)) as [|[t' c] s'] eqn:ES; [discriminate|]. unfold no_context, cur_type. rewrite ES. cbn [obind].
    destruct t'; fin; try (eapply handle_keeps; eassumption); reflexivity.
  Qed.
  Lemma open_keeps : forall h e, e = EStartObj \/ e = EStartArr ->
    match step h e with None => False | Some (Go h') => exists t b, sh h' = (t, b) :: sh h /\ (e = EStartObj -> b = true) | Some _ => True end.
  Proof.
    intros h e [-> | ->]; cbn [ph_step]; unfold ph_start_object, ph_start_array, ph_push.
    - unfold no_context, cur_type. destruct (sb_stack (p_sb h)) as [|[t c] s] eqn:ES.
      + eexists _, _. split; [unfold sh; cbn; rewrite ES; reflexivity|auto].
      + cbn [obind]. destruct t; try destruct (sb_key (p_sb h)); try destruct (cf_names cf); auto; (eexists _, _; split; [unfold sh; cbn; rewrite ES; reflexivity|auto]).
    - unfold no_context. destruct (sb_stack (p_sb h)) as [|[t c] s] eqn:ES; auto.
      destruct (sb_key (p_sb h)); try destruct (cf_names cf); try destruct (cf_w cf); auto; (eexists _, _; split; [unfold sh; cbn; rewrite ES; reflexivity|auto; discriminate]).
  Qed.
  Lemma close_keeps : forall h0 h t b, sh h = (t, b) :: sh h0 -> rooted h0 ->
    keeps h0 (step h EEndArr) /\ (b = true -> keeps h0 (step h EEndObj)).
  Proof.
    intros h0 h t b E R. cbn [ph_step]. unfold ph_end_array, ph_end_object. assert (E' := E). unfold sh in E' at 1. destruct (sb_stack (p_sb h)) as [|[t' c] s'] eqn:ES; [discriminate|].
    injection E' as E1 E2 E3. unfold no_context, missing, cur_type, pop_context. rewrite ES. cbn [obind]. split.
    - apply done_keeps. exact E3.
    - intros ->. destruct c as [need|i]; [|discriminate]. cbn [obind]. destruct need as [|x need]; [|exact I].
      set (h1 := match t' with x_state => if cf_names cf then h else set_from h (S (p_from h)) | x_rule => ph_add_rule cf h | _ => h end).
      assert (E4 : sb_stack (p_sb h1) = (t', CObj []) :: s') by (unfold h1; destruct t'; try destruct (cf_names cf); exact ES).
      rewrite E4. cbn [obind]. destruct (cf_embedded cf) eqn:EE.
      + cbn. specialize (R EE). rewrite <- E3 in R. destruct s' as [|[t2 c2] s2]; [destruct R; reflexivity|]. cbn [obind].
        destruct t2; try exact I; apply done_keeps; exact E3.
      + apply done_keeps. exact E3.
  Qed.
  Lemma bind_keeps : forall h r f, keeps h r -> (forall h', sh h' = sh h -> keeps h (f h')) -> keeps h (match r with Some (Go s) => f s | Some (Halt s) => Some (Halt s) | Some Fail => Some Fail | None => None end).
  Proof. intros h [[h'|h'|]|] f H F; cbn in *; auto. Qed.
  Lemma keeps_eq : forall h h' r, sh h' = sh h -> keeps h' r -> keeps h r.
  Proof. intros h h' [[x|x|]|] E H; cbn in *; auto. congruence. Qed.
  Lemma safe_run : forall j h, rooted h -> keeps h (run step (events j) h).
  Proof.
    intros j. induction j as [|b|z| |s|l IH|m IH] using json_rect'; intros h R; cbn [events].
    1,2,4,5: cbn [run]; match goal with |- keeps ?g (match step _ ?e with _ => _ end) => assert (L := leaf_keeps g e I); destruct (step g e) as [[x|x|]|]; exact L end.
    - cbn [run]. assert (L := leaf_keeps h (if Z.ltb z 0 then EInt z else EUns z)). destruct (Z.ltb z 0); cbn iota in L; specialize (L I);
        match goal with |- keeps h (match step h ?e with _ => _ end) => destruct (step h e) as [[x|x|]|]; exact L end.
    - cbn [run]. assert (O := open_keeps h EStartArr (or_intror eq_refl)). destruct (step h EStartArr) as [[h1|h1|]|]; auto. destruct O as (t & b & O & _).
      rewrite run_app. assert (B : forall h2, sh h2 = sh h1 -> keeps h1 (run step (flat_map events l) h2)).
      { assert (R1 : forall h2, sh h2 = sh h1 -> rooted h2) by (intros h2 E _; rewrite E, O; discriminate). clear O R h. induction IH as [|j l Hj IH IHl]; intros h2 E; [exact E|].
        rewrite flat_run. apply bind_keeps. 2: exact IHl. apply (keeps_eq h1 h2); auto. }
      specialize (B h1 eq_refl). destruct (run step (flat_map events l) h1) as [[h2|h2|]|]; auto. cbn in B.
      destruct (close_keeps h h2 t b) as [C _]; auto; [congruence|]. cbn [run]. destruct (step h2 EEndArr) as [[x|x|]|]; exact C.
    - cbn [run]. assert (O := open_keeps h EStartObj (or_introl eq_refl)). destruct (step h EStartObj) as [[h1|h1|]|]; auto. destruct O as (t & b & O & OB). specialize (OB eq_refl). subst b.
      rewrite run_app. assert (B : forall h2, sh h2 = sh h1 -> keeps h1 (run step (flat_map (fun e => EKey (fst e) :: events (snd e)) m) h2)).
      { assert (R1 : forall h2, sh h2 = sh h1 -> rooted h2) by (intros h2 E _; rewrite E, O; discriminate). assert (O1 : exists t s, sh h1 = (t, true) :: s) by eauto. clear O R h t. induction IH as [|e m He IH IHm]; intros h2 E; [exact E|].
        rewrite flat_run. apply bind_keeps. 2: exact IHm. cbn [run]. apply bind_keeps.
        - destruct O1 as (t & s & O1). apply (keeps_eq h1 h2); auto. eapply key_keeps. rewrite E. exact O1.
        - intros h3 E3. apply (keeps_eq h1 h3); auto. }
      specialize (B h1 eq_refl). destruct (run step (flat_map _ m) h1) as [[h2|h2|]|]; auto. cbn in B.
      destruct (close_keeps h h2 t true) as [_ C]; auto; [congruence|]. specialize (C eq_refl). cbn [run]. destruct (step h2 EEndObj) as [[x|x|]|]; exact C.
  Qed.
End Safe.
