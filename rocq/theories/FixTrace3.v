(** The paths of PAutomatonFixedPoint: get_path gives an accepting path with the reported weight, get_path_with_loop ends with an accepting path. *)
From Coq Require Import List Arith Lia Bool ZArith Permutation.
From Verif Require Import Base BaseFacts Spec SpecFacts PdaModel PdaProof AutModel AutProof PreStarModel PreStarProof PreStarLang
  PostStarModel SolverModel QueryModel QueryProof ProductModel ProductProof UtilModel UtilProof ShortSpec ShortModel PostShortProof PreShortModel PreShortProof TraceModel TraceProof TraceSolver
  FixSpec FixModel FixChain FixPre1 FixPre2 FixPath FixPath2 FixSolveModel FixSolveProof FixTraceModel FixTrace1.
Import ListNotations.

Lemma f_add_strict : forall mx a a' w v, flt mx a' a -> fle mx (f_add a w) (Some v) -> flt mx (f_add a' w) (Some v).
Proof.
  intros mx a a' w v H1 H2. apply flt_spec in H1. apply fle_spec in H2. apply flt_spec. destruct a as [a|]; [|destruct a'; tauto]. destruct w as [w|]; [|destruct a'; exact I].
  destruct a' as [a'|]; cbn in *; auto. rewrite sg_add in *. lia.
Qed.

Section Paths.
  Variable n : nat.
  Variable mx : bool.
  Variable A : faut.
  Notation E := (aut_edges (fa_aut A)).
  Notation wt := (fun x y z => fa_weight A (mk_edge x y z)).
  Notation fle := (fle mx).
  Notation flt := (flt mx).

  (** The recorded predecessors. [r] tells when a state was last updated, [r1] when it was first reached. *)
  Definition reached (zs : list sinfo) (c : nat) : Prop := exists i, nth_error zs c = Some i /\ si_w i <> None.
  Record zi (zs : list sinfo) (r r1 : nat -> nat) (B : nat) : Prop := {
    zi_B : forall s, r s <= B /\ r1 s <= B;
    zi_ini : forall s i, nth_error zs s = Some i -> si_w i = None <-> si_pred i = None;
    zi_ini1 : forall s i, nth_error zs s = Some i -> si_w i = None <-> si_first i = None;
    zi_none : forall s i, nth_error zs s = Some i -> si_pred i = Some None -> s < n /\ si_w i = Some (Some 0%Z);
    zi_pred : forall s i c l, nth_error zs s = Some i -> si_pred i = Some (Some (c, l)) -> E c l s /\ exists ci vc, nth_error zs c = Some ci /\ si_w ci = Some vc /\
      forall v, si_w i = Some (Some v) -> fle (f_add vc (wt c l s)) (Some v) /\ (r c < r s \/ flt (f_add vc (wt c l s)) (Some v));
    zi_none1 : forall s i, nth_error zs s = Some i -> si_first i = Some None -> s < n;
    zi_first : forall s i c l, nth_error zs s = Some i -> si_first i = Some (Some (c, l)) -> E c l s /\ reached zs c /\ r1 c < r1 s }.
  Definition zinv (d : zd) : Prop := exists r r1 B, zi (z_states d) r r1 B.

  Lemma zi_upd : forall zs r r1 B t sto c ci cw l s', zi zs r r1 B -> nth_error zs t = Some sto -> nth_error zs c = Some ci -> si_w ci = Some cw -> E c l t ->
    z_less mx (f_add cw (wt c l t)) (si_w sto) = true -> (si_w s' = Some None \/ si_w s' = Some (f_add cw (wt c l t))) -> si_pred s' = Some (Some (c, l)) ->
    si_first s' = match si_first sto with None => Some (Some (c, l)) | f => f end -> exists r' r1' B', zi (upd zs t s') r' r1' B'.
  Proof.
    intros zs r r1 B t sto c ci cw l s' Z Ht Hc Hcw He HL HW HP HF. set (tw := f_add cw (wt c l t)) in *.
    assert (Lt : t < length zs) by (eapply nth_error_lt; eauto).
    assert (NE : forall s, nth_error (upd zs t s') s = if Nat.eq_dec s t then Some s' else nth_error zs s).
    { intros s. destruct (Nat.eq_dec s t) as [->|N]; [apply nth_error_upd_eq; auto|apply nth_error_upd_neq; auto]. }
    assert (Ws : exists w', si_w s' = Some w' /\ (forall v, si_w sto = Some v -> flt w' v) /\ (forall v, w' = Some v -> tw = Some v)).
    { destruct HW as [HW|HW].
      - exists None. ands; auto; [|discriminate]. intros v Hv. rewrite Hv in HL. cbn [z_less] in HL. apply (flt_None mx tw). exact HL.
      - exists tw. ands; auto. intros v Hv. rewrite Hv in HL. exact HL. }
    destruct Ws as (w' & W1 & W2 & W3).
    set (r' := fun x => if Nat.eq_dec x t then S B else r x).
    set (r1' := fun x => if Nat.eq_dec x t then (match si_first sto with None => S B | _ => r1 x end) else r1 x).
    assert (RB : forall x, r x <= B /\ r1 x <= B) by apply Z.
    exists r', r1', (S B). constructor.
    - intros s. unfold r', r1'. specialize (RB s). destruct (Nat.eq_dec s t); [|lia]. destruct (si_first sto); lia.
    - intros s i Hs. rewrite NE in Hs. destruct (Nat.eq_dec s t); [injection Hs as <-; rewrite W1, HP; split; discriminate|]. eapply zi_ini; eauto.
    - intros s i Hs. rewrite NE in Hs. destruct (Nat.eq_dec s t); [injection Hs as <-; rewrite W1, HF; split; try discriminate; destruct (si_first sto); discriminate|]. eapply zi_ini1; eauto.
    - intros s i Hs Hp. rewrite NE in Hs. destruct (Nat.eq_dec s t); [injection Hs as <-; congruence|]. eapply zi_none; eauto.
    - intros s i c' l' Hs Hp. rewrite NE in Hs. destruct (Nat.eq_dec s t) as [->|Ns].
      + injection Hs as <-. rewrite HP in Hp. injection Hp as <- <-. split; auto. destruct (Nat.eq_dec c t) as [->|Nc].
        * exists s', w'. rewrite NE. destruct (Nat.eq_dec t t); [|congruence]. ands; auto. intros v Hv. rewrite W1 in Hv. injection Hv as ->.
          assert (ci = sto) by congruence. subst ci.
          assert (Q : flt (f_add (Some v) (wt t l t)) (Some v)) by (apply (f_add_strict mx cw); auto; fold tw; rewrite (W3 v eq_refl); apply fle_refl).
          split; [apply flt_fle|right]; auto.
        * exists ci, cw. rewrite NE. destruct (Nat.eq_dec c t); [congruence|]. ands; auto. intros v Hv. rewrite W1 in Hv. injection Hv as ->. fold tw. rewrite (W3 v eq_refl). split; [apply fle_refl|]. left. unfold r'.
          destruct (Nat.eq_dec c t); [congruence|]. destruct (Nat.eq_dec t t); [|congruence]. specialize (RB c). lia.
      + destruct (zi_pred _ _ _ _ Z s i c' l' Hs Hp) as (K1 & i' & vc & K2 & K3 & K4). split; auto. destruct (Nat.eq_dec c' t) as [->|Nc].
        * exists s', w'. rewrite NE. destruct (Nat.eq_dec t t); [|congruence]. ands; auto. intros v Hv. destruct (K4 v Hv) as [K5 _].
          assert (i' = sto) by congruence. subst i'. assert (Q : flt (f_add w' (wt t l' s)) (Some v)) by (apply (f_add_strict mx vc); auto). split; [apply flt_fle|right]; auto.
        * exists i', vc. rewrite NE. destruct (Nat.eq_dec c' t); [congruence|]. ands; auto. intros v Hv. destruct (K4 v Hv) as [K5 K6]. split; auto. unfold r'.
          destruct (Nat.eq_dec c' t); [congruence|]. destruct (Nat.eq_dec s t); [congruence|]. auto.
    - intros s i Hs Hp. rewrite NE in Hs. destruct (Nat.eq_dec s t) as [->|Ns]; [|eapply zi_none1; eauto]. injection Hs as <-. rewrite HF in Hp.
      destruct (si_first sto) as [f|] eqn:Fs; [|discriminate]. eapply zi_none1; eauto. congruence.
    - intros s i c' l' Hs Hp. rewrite NE in Hs.
      assert (RE : forall x, reached zs x -> reached (upd zs t s') x).
      { intros x (ix & X1 & X2). unfold reached. rewrite NE. destruct (Nat.eq_dec x t); [exists s'; split; auto; rewrite W1; discriminate|]. eauto. }
      assert (R1E : forall x, reached zs x -> r1' x = r1 x).
      { intros x (ix & X1 & X2). unfold r1'. destruct (Nat.eq_dec x t) as [->|]; auto. assert (ix = sto) by congruence. subst ix. destruct (si_first sto) eqn:Fs; auto.
        exfalso. apply X2. apply (zi_ini1 _ _ _ _ Z t sto Ht). auto. }
      destruct (Nat.eq_dec s t) as [->|Ns].
      + injection Hs as <-. rewrite HF in Hp. destruct (si_first sto) as [f|] eqn:Fs.
        * assert (Fs' : si_first sto = Some (Some (c', l'))) by congruence. destruct (zi_first _ _ _ _ Z t sto c' l' Ht Fs') as (K1 & K2 & K3). ands; auto. rewrite (R1E c') by auto. unfold r1'. destruct (Nat.eq_dec t t); [|congruence]. try rewrite Fs. auto.
        * injection Hp as <- <-. assert (RC : reached zs c) by (exists ci; split; auto; congruence). ands; auto. rewrite (R1E c) by auto. unfold r1'. destruct (Nat.eq_dec t t); [|congruence]. try rewrite Fs. specialize (RB c). lia.
      + destruct (zi_first _ _ _ _ Z s i c' l' Hs Hp) as (K1 & K2 & K3). ands; auto. rewrite (R1E c') by auto. unfold r1'. destruct (Nat.eq_dec s t); [congruence|]. auto.
  Qed.

  Definition same (i i' : sinfo) : Prop := si_w i' = si_w i /\ si_first i' = si_first i /\ si_pred i' = si_pred i.
  Lemma zi_same : forall zs r r1 B c sc s', zi zs r r1 B -> nth_error zs c = Some sc -> same sc s' -> zi (upd zs c s') r r1 B.
  Proof.
    intros zs r r1 B c sc s' Z Hc (S1 & S2 & S3). assert (Lt : c < length zs) by (eapply nth_error_lt; eauto).
    assert (NE : forall s i, nth_error (upd zs c s') s = Some i -> exists i0, nth_error zs s = Some i0 /\ same i0 i).
    { intros s i H. destruct (Nat.eq_dec s c) as [->|N]; [rewrite nth_error_upd_eq in H by auto; injection H as <-; exists sc; split; auto; repeat split; auto|rewrite nth_error_upd_neq in H by auto; exists i; split; auto; repeat split; auto]. }
    assert (NF : forall s i, nth_error zs s = Some i -> exists i', nth_error (upd zs c s') s = Some i' /\ si_w i' = si_w i).
    { intros s i H. destruct (Nat.eq_dec s c) as [->|N]; [rewrite nth_error_upd_eq by auto; exists s'; split; auto; congruence|rewrite nth_error_upd_neq by auto; eauto]. }
    constructor.
    - apply Z.
    - intros s i Hs. destruct (NE s i Hs) as (i0 & H0 & E1 & E2 & E3). rewrite E1, E3. eapply zi_ini; eauto.
    - intros s i Hs. destruct (NE s i Hs) as (i0 & H0 & E1 & E2 & E3). rewrite E1, E2. eapply zi_ini1; eauto.
    - intros s i Hs. destruct (NE s i Hs) as (i0 & H0 & E1 & E2 & E3). rewrite E1, E3. eapply zi_none; eauto.
    - intros s i c' l' Hs. destruct (NE s i Hs) as (i0 & H0 & E1 & E2 & E3). rewrite E1, E3. intros Hp. destruct (zi_pred _ _ _ _ Z s i0 c' l' H0 Hp) as (K1 & ci & vc & K2 & K3 & K4). split; auto.
      destruct (NF _ _ K2) as (ci' & N1 & N2). exists ci', vc. ands; auto. congruence.
    - intros s i Hs. destruct (NE s i Hs) as (i0 & H0 & E1 & E2 & E3). rewrite E2. eapply zi_none1; eauto.
    - intros s i c' l' Hs. destruct (NE s i Hs) as (i0 & H0 & E1 & E2 & E3). rewrite E2. intros Hp. destruct (zi_first _ _ _ _ Z s i0 c' l' H0 Hp) as (K1 & (ci & K2 & K3) & K4). ands; auto.
      destruct (NF _ _ K2) as (ci' & N1 & N2). exists ci'. split; auto. congruence.
  Qed.

  Lemma z_target_keep : forall b c st t st', zinv (fw_d st) -> z_target mx A b c st t = Some st' -> zinv (fw_d st').
  Proof.
    intros b c st t st' (r & r1 & B & Z) H. unfold z_target in H. destruct (labels_between (fa_aut A) c t) as [|l ls] eqn:EL; [injection H as <-; exists r, r1, B; auto|].
    destruct (min_lab_spec mx A c t ls (l, fa_weight A (mk_edge c l t)) eq_refl) as (M1 & M2 & _). set (lw := min_lab mx A (l, fa_weight A (mk_edge c l t)) c t ls) in *. cbn [fst snd] in M1.
    destruct (nth_error (z_states (fw_d st)) c) as [sc|] eqn:Ec; [|discriminate]. cbn [obind] in H. destruct (si_w sc) as [cw|] eqn:Ew; [|discriminate]. cbn [obind] in H.
    destruct (nth_error (z_states (fw_d st)) t) as [sto|] eqn:Et; [|discriminate]. cbn [obind] in H. cbv zeta in H. destruct (z_less mx (f_add cw (snd lw)) (si_w sto)) eqn:L; [|injection H as <-; exists r, r1, B; auto].
    injection H as <-. assert (Em : E c (fst lw) t). { apply labels_between_In. rewrite EL. destruct M1 as [->|M1]; [left|right]; auto. }
    rewrite M2 in *. set (s' := mk_si _ _ _ _).
    assert (Q : exists r' r1' B', zi (upd (z_states (fw_d st)) t s') r' r1' B').
    { apply (zi_upd _ r r1 B t sto c sc cw (fst lw) s' Z Et Ec Ew Em L); auto. destruct b; [left|right]; reflexivity. }
    destruct Q as (r' & r1' & B' & Q). exists r', r1', B'. destruct (si_inq sto); exact Q.
  Qed.
  Lemma z_step_keep : forall b st c st' k, zinv (fw_d st) -> z_step_with mx A b st c = Some (st', k) -> zinv (fw_d st').
  Proof.
    intros b st c st' k (r & r1 & B & Z) H. unfold z_step_with in H. destruct (nth_error (z_states (fw_d st)) c) as [sc|] eqn:Ec; [|discriminate]. cbn [obind] in H.
    destruct (si_w sc) as [cw|] eqn:Ew; [|discriminate]. cbn [obind] in H. destruct (accepting (fa_aut A) c) as [acc|]; [|discriminate]. cbn [obind] in H. cbv zeta in H.
    set (st1 := z_set st _) in H.
    assert (Z1 : forall m, zinv (fw_d (z_set st1 (mk_zd (z_states (fw_d st1)) m)))).
    { intros m. exists r, r1, B. cbn. eapply zi_same; eauto. split; auto. }
    assert (Z0 : zinv (fw_d st1)) by (exists r, r1, B; cbn; eapply zi_same; eauto; split; auto).
    assert (LP : forall s s' k, zinv (fw_d s) -> (s2 <- ofold (z_target mx A b c) (tos (fa_aut A) c) s ;; Some (s2, true)) = Some (s', k) -> zinv (fw_d s')).
    { intros s s2 k' Zs Hs. destruct (ofold (z_target mx A b c) (tos (fa_aut A) c) s) as [s3|] eqn:Eo; [|discriminate]. injection Hs as <- <-.
      eapply (ofold_keep _ _ (fun s => zinv (fw_d s))); [| |exact Eo]; auto. intros a x a' _ Ha Ea. eapply z_target_keep; eauto. }
    destruct acc; [|eapply LP; eauto]. destruct cw as [cw|].
    - match type of H with obind ?X _ = _ => destruct X as [bt|]; [|discriminate] end. cbn [obind] in H. eapply LP; [|exact H]. destruct bt; auto.
    - injection H as <- <-. apply Z1.
  Qed.
  Lemma z_init_inv : forall st, z_init n A = Some st -> zinv (fw_d st).
  Proof.
    intros st H. unfold z_init in H. destruct (Nat.leb n (a_size (fa_aut A))); [|discriminate]. injection H as <-. exists (fun _ => 0), (fun _ => 0), 0. cbn [fw_d z_states].
    assert (G : forall s i, nth_error (repeat (mk_si (Some (Some 0%Z)) (Some None) (Some None) true) n ++ repeat (mk_si None None None false) (a_size (fa_aut A) - n)) s = Some i ->
      (s < n /\ i = mk_si (Some (Some 0%Z)) (Some None) (Some None) true) \/ i = mk_si None None None false).
    { intros s i H. destruct (Nat.lt_ge_cases s n) as [L|L].
      - rewrite nth_error_app1 in H by (rewrite repeat_length; auto). apply nth_error_In in H. apply repeat_spec in H. auto.
      - rewrite nth_error_app2 in H by (rewrite repeat_length; auto). apply nth_error_In in H. apply repeat_spec in H. auto. }
    constructor; [lia|..]; intros s i; [| | |intros c l| |intros c l]; intros H; destruct (G s i H) as [[L ->]| ->]; cbn; auto; try (split; discriminate); try (split; congruence); try discriminate; try tauto.
  Qed.
  Lemma paths_zinv : forall fuel d, fixed_point_paths n mx A fuel = done d -> zinv d.
  Proof.
    intros fuel d H. unfold fixed_point_paths in H. destruct (z_init n A) as [st|] eqn:Ei; [|discriminate]. cbn [obind] in H. apply z_init_inv in Ei.
    destruct (fw_run zd nat (fun l => l) (z_step_with mx A) fuel st) as [[st'|]|] eqn:Er; try discriminate. injection H as <-.
    apply (fw_run_keep _ _ _ _ zinv) in Er; auto. intros. eapply z_step_keep; eauto.
  Qed.
End Paths.
