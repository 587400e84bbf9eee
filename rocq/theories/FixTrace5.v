(** find_path_fixed_point in the product, and the weight of its path in the saturated automaton. *)
From Coq Require Import List Arith Lia Bool ZArith Permutation.
From Verif Require Import Base BaseFacts Spec SpecFacts PdaModel PdaProof AutModel AutProof PreStarModel PreStarProof PreStarLang
  PostStarModel SolverModel QueryModel QueryProof ProductModel ProductProof UtilModel UtilProof ShortSpec ShortModel PostShortProof PreShortModel PreShortProof TraceModel TraceProof TraceSolver
  FixSpec FixModel FixChain FixPre1 FixPre2 FixPath FixPath2 FixSolveModel FixSolveProof FixTraceModel FixTrace1 FixTrace2 FixTrace3 FixTrace4.
Import ListNotations.

Lemma answers_det : forall R (f : nat -> option (option R)) Q, answers f Q -> (forall a b r, f a = done r -> a <= b -> f b = done r) ->
  exists r b, Q r /\ f b = done r /\ forall fuel, (f fuel = Some None /\ fuel < b) \/ f fuel = done r.
Proof.
  intros R f Q [H [b Hb]] M. destruct (H b) as [E|(r & E & Hr)]; [destruct (Hb b (le_n _) E)|]. exists r, b. ands; auto. intros fuel.
  destruct (le_lt_dec b fuel) as [L|L]; [right; eapply M; eauto|]. destruct (H fuel) as [F|(r' & F & _)]; auto. right. rewrite F. rewrite <- E. symmetry. eapply M; eauto. lia.
Qed.

Lemma fixed_paths_mono : forall n mx A a b d, fixed_point_paths n mx A a = done d -> a <= b -> fixed_point_paths n mx A b = done d.
Proof.
  intros n mx A a b d H L. revert H. unfold fixed_point_paths. destruct (z_init n A) as [s0|]; [|discriminate]. cbn [obind]. unfold fw_run, fw_finalize.
  destruct (fw_loop _ _ _ _ false a s0) as [[s1|]|] eqn:L1; try discriminate. rewrite (fw_loop_mono _ _ _ _ false a s0 s1 b L1) by lia.
  destruct (fw_loop _ _ _ _ true a _) as [[s2|]|] eqn:L2; try discriminate. rewrite (fw_loop_mono _ _ _ _ true a _ s2 b L2) by lia. auto.
Qed.
Lemma pre_fix_mono : forall P mx A a b d, pre_star_fixed_point P mx a A = done d -> a <= b -> pre_star_fixed_point P mx b A = done d.
Proof.
  intros P mx A a b d H L. revert H. unfold pre_star_fixed_point. destruct (x_init P mx A) as [s0|]; [|discriminate]. cbn [obind]. unfold fw_run, fw_finalize.
  destruct (fw_loop _ _ _ _ false a s0) as [[s1|]|] eqn:L1; try discriminate. rewrite (fw_loop_mono _ _ _ _ false a s0 s1 b L1) by lia.
  destruct (fw_loop _ _ _ _ true a _) as [[s2|]|] eqn:L2; try discriminate. rewrite (fw_loop_mono _ _ _ _ true a _ s2 b L2) by lia. auto.
Qed.

Section Find.
  Variable P : pda.
  Variable mx : bool.
  Variable wp : wprod.
  Let n := pd_n P.
  Let A := wp_faut wp.
  Hypothesis C1 : n <= a_size (fa_aut A).
  Hypothesis C2 : wf_ord (fa_aut A).
  Hypothesis C3 : forall q l t, aut_edges (fa_aut A) q l t -> q < a_size (fa_aut A) /\ t < a_size (fa_aut A).
  Hypothesis NE : forall q t, ~ aut_edges (fa_aut A) q None t.
  Let sm := fun id => fst (orig_pair P (wp_pr wp) id).
  Notation wt := (fun x y z => fa_weight A (mk_edge x y z)).

  Definition acc_path (qs : list nat) (ls : list (option nat)) : Prop := spath (aut_edges (fa_aut A)) qs ls /\ hd 0 qs < n /\ aut_final (fa_aut A) (last qs 0).
  Definition apt (qs : list nat) (ls : list (option nat)) : apth nat := mk_apth (last (map sm qs) (sm 0)) (combine ls (map sm qs)).
  Notation find := (find_path_fixed_point P mx).

  Lemma find_path_fix : exists d o b0 b, fixed_point_paths n mx A b0 = done d /\ z_weight d = Some o /\
    match o with
    | None => forall fuel, (find fuel wp = Some None /\ fuel < b) \/ find fuel wp = done (None, None)
    | Some None => forall fuel, (find fuel wp = Some None /\ fuel < b) \/ exists qs ls, acc_path qs ls /\ find fuel wp = done (Some (apt qs ls), Some None)
    | Some (Some v) => exists qs ls, acc_path qs ls /\ pathw wt qs ls = Some v /\ forall fuel, (find fuel wp = Some None /\ fuel < b) \/ find fuel wp = done (Some (apt qs ls), Some (Some v))
    end.
  Proof.
    destruct (answers_det _ _ _ (paths_run n mx A C1 C2 C3) (fixed_paths_mono n mx A)) as (d & b0 & (st & FI & ->) & Eb & D). set (d := fw_d st) in *.
    destruct (paths_zinv _ _ _ _ _ Eb) as (r & r1 & B & Z). destruct FI as (_ & F2 & F3). destruct (z_min d) as [m|] eqn:Em.
    2:{ exists d, None, b0, b0. split; auto. split; [unfold z_weight; rewrite Em; auto|]. intros fuel. unfold find_path_fixed_point. fold n A. destruct (D fuel) as [[H L]|H]; rewrite H; auto. right. unfold done. rewrite Em. auto. }
    destruct (F2 m Em) as [Fm Vm]. unfold V in Vm. change (zs st) with (z_states d) in Vm. destruct (nth_error (z_states d) m) as [i|] eqn:Ei; [|congruence]. destruct (si_w i) as [w|] eqn:Ew; [|congruence].
    assert (ZW : z_weight d = Some (Some w)) by (unfold z_weight; rewrite Em, Ei; cbn; rewrite Ew; auto).
    destruct w as [v|].
    - assert (CLO : forall s i v l t j, nth_error (z_states d) s = Some i -> si_w i = Some v -> aut_edges (fa_aut A) s l t -> nth_error (z_states d) t = Some j -> exists u, si_w j = Some u /\ fle mx u (f_add v (wt s l t))).
      { intros s i' v' l t j Hs Hv He Hj. destruct F3 as [(_ & m' & M1 & _ & M3)|(G & _)].
        - fold d in M1. assert (m' = m) by congruence. subst m'. unfold V in M3. change (zs st) with (z_states d) in M3. rewrite Ei in M3. congruence.
        - destruct (G s v' l t) as (u & U1 & U2); auto; [unfold V; change (zs st) with (z_states d); rewrite Hs; auto|]. unfold V in U1. change (zs st) with (z_states d) in U1. rewrite Hj in U1. eauto. }
      destruct (z_get_path_spec n mx A NE (z_states d) r r1 B Z sm m CLO i v Ei Ew) as (p & q & E & (qs & ls & -> & Q1 & Q2 & Q3 & Q4) & Hq).
      exists d, (Some (Some v)), b0, b0. split; auto. split; auto. exists qs, ls. split; [unfold acc_path; rewrite Q2, Q3; auto|]. split; auto. intros fuel. unfold find_path_fixed_point. fold n A sm. destruct (D fuel) as [[H L]|H]; rewrite H; auto.
      right. cbv beta iota delta [done]. rewrite Em. cbv zeta. rewrite ZW. cbn [obind]. rewrite E. cbn [obind]. unfold apt. rewrite last_map, Q3. auto.
    - exists d, (Some None), b0, (b0 + length (z_states d) + B + 1). split; auto. split; auto. intros fuel. unfold find_path_fixed_point. fold n A sm. destruct (D fuel) as [[H L]|H]; rewrite H; [left; split; auto; lia|].
      cbv beta iota delta [done]. rewrite Em. cbv zeta. rewrite ZW. cbn [obind].
      assert (R : reached (z_states d) m) by (exists i; split; auto; congruence).
      destruct (z_get_path_with_loop_spec n mx A NE (z_states d) r r1 B Z sm m fuel R) as [[E L]|(p & E & q & Hq & w & qs & ls & -> & Q1 & Q2 & Q3 & Q4)]; rewrite E; [left; split; auto; lia|].
      right. exists qs, ls. split; [unfold acc_path; rewrite Q2, Q3; auto|]. cbv beta iota delta [done]. unfold apt. rewrite last_map, Q3. auto.
  Qed.
End Find.

Section Weight.
  Variable P : pda.
  Let n := pd_n P.
  Variables F S : faut.
  Hypothesis NEF : forall q t, ~ aut_edges (fa_aut F) q None t.
  Hypothesis NES : forall q t, ~ aut_edges (fa_aut S) q None t.
  Variable wp : wprod.
  Hypothesis O : wprod_ok n F S wp.
  Notation E := (aut_edges (pr_aut (wp_pr wp))).

  Lemma prod_noeps : forall q t, ~ E q None t.
  Proof. intros q t H. destruct (pb_edges _ _ _ _ _ (pb_0 _ _ _ _ _ (wo_b _ _ _ _ O)) _ _ _ H) as (a & b & a' & b' & _ & _ & J). cbn in J. destruct J as [[J _]|[J _]]; [eapply NEF|eapply NES]; eauto. Qed.

  Lemma apt_weight : forall qs ls, spath E qs ls ->
    pweight (fa_weight F) (ap_end (apt P wp qs ls)) (ap_edges (apt P wp qs ls)) = pathw (fun x y z => fa_weight (wp_faut wp) (mk_edge x y z)) qs ls.
  Proof.
    set (g := fun id => fst (orig_pair P (wp_pr wp) id)).
    intros qs ls H. unfold apt. cbn [ap_end ap_edges]. change (fst (orig_pair P (wp_pr wp) 0)) with (g 0). fold g. induction H as [q|q l q' qs ls He Hs IH]; [reflexivity|].
    assert (LG : forall x y z, E x y z -> aut_edges (fa_aut F) (g x) y (g z)).
    { intros x y z Hx. assert (J := orig_edge P _ _ _ _ (wo_b _ _ _ _ O) _ _ _ Hx). destruct y; cbn in J; [apply J|]. destruct (prod_noeps _ _ Hx). }
    destruct (spath_pvalid E (aut_edges (fa_aut F)) g (q' :: qs) ls (g 0) Hs LG) as [_ K].
    destruct (pb_edges _ _ _ _ _ (pb_0 _ _ _ _ _ (wo_b _ _ _ _ O)) _ _ _ He) as (a & b & a' & b' & P1 & P2 & _). destruct l as [l|]; [|destruct (prod_noeps _ _ He)].
    destruct (EP_weight n F S NEF (fun q t Hq => match NES q t Hq with end) wp q (Some l) q' a b O He P1) as (a1 & b1 & P3 & _ & _ & Hw). assert (Q : (a1, b1) = (a', b')) by congruence. injection Q as -> ->.
    change (map g (q :: q' :: qs)) with (g q :: map g (q' :: qs)). cbn [combine pweight pathw].
    replace (last (g q :: map g (q' :: qs)) (g 0)) with (last (map g (q' :: qs)) (g 0)) by reflexivity. rewrite K, IH. f_equal.
    unfold wP, wF in Hw. rewrite Hw. cbn [hd]. unfold g, orig_pair. fold n. rewrite P1, P2. auto.
  Qed.
End Weight.
