(** The rule store under sequences of add and clear calls. *)
From Coq Require Import List Arith Lia Bool ZArith.
From Verif Require Import Base BaseFacts Spec PdaModel PdaProof.
Import ListNotations.

Definition keep (s : nat) (x : rule * labels) : bool := negb (Nat.eqb (r_to (fst x)) s).

Lemma clear_loop : forall s l sts, (forall p, In p l -> p < length sts) ->
  exists sts', ofold (clear_rules_to s) l sts = Some sts' /\ length sts' = length sts /\
    forall q, ps_rules (nth q sts' empty_pstate) =
              (if in_dec Nat.eq_dec q l then filter (keep s) (ps_rules (nth q sts empty_pstate)) else ps_rules (nth q sts empty_pstate)) /\
              ps_pre (nth q sts' empty_pstate) = ps_pre (nth q sts empty_pstate).
Proof.
  intros s l; induction l as [|p l IH]; intros sts Hl; cbn [ofold].
  - exists sts. ands; auto.
  - assert (Lp: p < length sts) by (apply Hl; left; auto). destruct (nth_error_ex _ _ _ Lp) as [sp Ep].
    unfold clear_rules_to at 1. rewrite Ep. cbn [obind]. set (s1 := upd sts p _).
    destruct (IH s1) as [sts' [E [HL HQ]]]. { unfold s1. rewrite upd_length. intros; apply Hl; right; auto. }
    exists sts'. rewrite E. ands; auto. { rewrite HL. apply upd_length. }
    intros q. destruct (HQ q) as [Q1 Q2]. unfold s1 in *. rewrite nth_upd in Q1, Q2. apply Nat.ltb_lt in Lp. rewrite Lp in *.
    assert (En := nth_error_nth_default _ _ _ _ empty_pstate Ep).
    destruct (Nat.eqb_spec p q) as [->|Hne].
    + rewrite Q1, Q2, En. cbn [ps_rules ps_pre]. split; auto. fold (keep s). destruct (in_dec Nat.eq_dec q (q :: l)) as [_|n]; [|exfalso; apply n; left; auto].
      destruct (in_dec Nat.eq_dec q l); auto. clear. induction (ps_rules sp) as [|x xs IH]; auto. cbn.
      destruct (keep s x) eqn:K; cbn; rewrite ?K, ?IH; auto.
    + rewrite Q1, Q2. split; auto. destruct (in_dec Nat.eq_dec q l), (in_dec Nat.eq_dec q (p :: l)); cbn in *; auto.
      * exfalso; tauto. * exfalso. destruct i; congruence.
Qed.

Lemma filter_id : forall A (f : A -> bool) l, (forall x, In x l -> f x = true) -> filter f l = l.
Proof. induction l as [|a l IH]; intros H; cbn; auto. rewrite H by (left; auto). f_equal. apply IH. intros; apply H; right; auto. Qed.

Lemma clear_state_spec : forall P s, wf_pda' P -> s < pd_n P ->
  exists P', clear_state P s = Some P' /\ pd_n P' = pd_n P /\ pd_nlab P' = pd_nlab P /\
    (forall p, rules_at P' p = if Nat.eqb p s then [] else filter (keep s) (rules_at P p)) /\
    (forall q, pres_at P' q = if Nat.eqb q s then [] else pres_at P q).
Proof.
  intros P s W Hs. unfold clear_state. destruct (nth_error_ex _ _ _ Hs) as [ss Es]. rewrite Es. cbn [obind].
  assert (En := nth_error_nth_default _ _ _ _ empty_pstate Es).
  destruct (clear_loop s (ps_pre ss) (upd (pd_states P) s (mk_pstate [] (ps_pre ss)))) as [sts [E [HL HQ]]].
  { rewrite upd_length. intros p Hp. apply (wf'_pre_lt _ W s). unfold pres_at. rewrite En. auto. }
  rewrite E. cbn [obind]. rewrite upd_length in HL. assert (Ls: s < length sts) by (rewrite HL; auto).
  destruct (nth_error_ex _ _ _ Ls) as [ss' Es']. rewrite Es'. cbn [obind]. eexists; split; [reflexivity|].
  assert (En' := nth_error_nth_default _ _ _ _ empty_pstate Es').
  assert (Ls' := Ls). apply Nat.ltb_lt in Ls'. assert (Hs' := Hs). apply Nat.ltb_lt in Hs'. unfold pd_n in Hs'.
  ands.
  - unfold pd_n. cbn. rewrite upd_length. auto.
  - reflexivity.
  - intros p. unfold rules_at at 1. cbn [pd_states]. rewrite nth_upd, Ls'.
    destruct (HQ p) as [Q1 _]. destruct (HQ s) as [S1 _]. rewrite nth_upd in Q1, S1. rewrite Hs' in *. rewrite En' in S1. rewrite Nat.eqb_refl in S1.
    cbn [ps_rules] in *. rewrite (Nat.eqb_sym p s). destruct (Nat.eqb_spec s p) as [E0|Hne]; cbn [ps_rules].
    + rewrite S1. cbn [filter]. destruct (in_dec Nat.eq_dec s (ps_pre ss)); auto.
    + rewrite Q1. change (ps_rules (nth p (pd_states P) empty_pstate)) with (rules_at P p).
      destruct (in_dec Nat.eq_dec p (ps_pre ss)) as [Hi|Hni]; auto. symmetry; apply filter_id. intros [r ls] Hin. unfold keep; cbn.
      apply negb_true_iff. apply Nat.eqb_neq. intros Ht. apply Hni. apply (wf'_pre _ W) in Hin. rewrite Ht in Hin.
      unfold pres_at in Hin. rewrite En in Hin. auto.
  - intros q. unfold pres_at at 1. cbn [pd_states]. rewrite nth_upd, Ls'. rewrite (Nat.eqb_sym q s).
    destruct (HQ q) as [_ Q2]. rewrite nth_upd in Q2. destruct (Nat.eqb_spec s q); auto.
Qed.

Lemma clear_state_wf : forall P s P', wf_pda' P -> s < pd_n P -> clear_state P s = Some P' -> wf_pda' P'.
Proof.
  intros P s P' W Hs E. destruct (clear_state_spec P s W Hs) as [P1 [E1 [Hn [Hl [HR HP]]]]]. rewrite E1 in E. inversion E; subst P1.
  assert (HI: forall p x, In x (rules_at P' p) <-> p <> s /\ In x (rules_at P p) /\ r_to (fst x) <> s).
  { intros p x. rewrite HR. destruct (Nat.eqb_spec p s); [cbn; tauto|]. rewrite filter_In. unfold keep.
    rewrite negb_true_iff, Nat.eqb_neq. tauto. }
  constructor; intros.
  - apply HI in H. destruct H as [_ [H _]]. rewrite Hn. eapply (wf'_to _ W); eauto.
  - apply HI in H. destruct H as [_ [H Hne]]. cbn in Hne. rewrite HP. destruct (Nat.eqb_spec (r_to r) s); [contradiction|].
    eapply (wf'_pre _ W); eauto.
  - rewrite HP in H. destruct (Nat.eqb q s); [destruct H|]. rewrite Hn. eapply (wf'_pre_lt _ W); eauto.
  - rewrite HR. destruct (Nat.eqb p s); [constructor|]. unfold rsorted.
    assert (K := wf'_rules _ W p). unfold rsorted in K. revert K. generalize (rules_at P p). clear.
    induction l as [|x l IH]; cbn; intros K; auto. apply Sorted.StronglySorted_inv in K. destruct K as [K1 K2].
    destruct (keep s x); cbn; auto. constructor; auto. clear - K2. induction l as [|y l IH]; cbn; auto. inversion K2; subst.
    destruct (keep s y); cbn; auto.
  - rewrite HP. destruct (Nat.eqb p s); [constructor|]. apply (wf'_pre_sorted _ W).
  - apply HI in H. destruct H as [_ [H _]]. rewrite Hl. eapply (wf'_labs _ W); eauto.
  - apply HI in H. destruct H as [_ [H _]]. rewrite Hl. eapply (wf'_opl _ W); eauto.
Qed.

(** What a sequence of calls describes: the rules added and not cleared afterwards. *)
Definition live (cs : list pcall) (u : urule) : Prop :=
  exists cs1 cs2, cs = cs1 ++ CAdd u :: cs2 /\ forall s, In (CClear s) cs2 -> s <> u_from u /\ s <> r_to (u_rule u).
Definition live_rules (nlab : nat) (cs : list pcall) : pds := fun sr =>
  exists u, live cs u /\ s_from sr = u_from u /\ s_to sr = r_to (u_rule u) /\ s_op sr = sop_of (u_rule u) /\
    (if u_wild u then s_pre sr < nlab else In (s_pre sr) (u_pre u)).
Definition wf_call (nlab : nat) (c : pcall) : Prop := match c with CAdd u => wf_urule nlab u | CClear _ => True end.

Lemma live_nil : forall u, ~ live [] u.
Proof. intros u [cs1 [cs2 [H _]]]. destruct cs1; discriminate. Qed.

Lemma live_snoc : forall cs c u, live (cs ++ [c]) u <->
  (c = CAdd u) \/ (live cs u /\ forall s, c = CClear s -> s <> u_from u /\ s <> r_to (u_rule u)).
Proof.
  intros cs c u. split.
  - intros [cs1 [cs2 [E H]]]. destruct (exists_last (l := CAdd u :: cs2)) as [l' [x Ex]]; [discriminate|].
    rewrite Ex in E. rewrite app_assoc in E. apply app_inj_tail in E. destruct E as [E <-].
    destruct l' as [|y l']; cbn in Ex; inversion Ex; subst.
    + left; auto.
    + right. split.
      * exists cs1, l'. split; auto. intros s Hs. apply H. apply in_or_app; auto.
      * intros s ->. apply H. apply in_or_app; cbn; auto.
  - intros [->|[[cs1 [cs2 [-> H]]] Hc]].
    + exists cs, []. split; auto.
    + exists cs1, (cs2 ++ [c]). split; [rewrite <- app_assoc; auto|]. intros s Hs. apply in_app_or in Hs.
      destruct Hs as [Hs|[Hs|[]]]; auto.
Qed.

Lemma ofold_app : forall S A (f : S -> A -> option S) l1 l2 s, ofold f (l1 ++ l2) s = (s' <- ofold f l1 s ;; ofold f l2 s').
Proof. induction l1 as [|a l1 IH]; intros; cbn; auto. destruct (f s a); cbn; auto. Qed.

Lemma calls_spec : forall nlab cs P, Forall (wf_call nlab) cs -> do_calls nlab cs = Some P ->
  wf_pda' P /\ pd_nlab P = nlab /\ (forall sr, pda_rules P sr <-> live_rules nlab cs sr).
Proof.
  intros nlab cs. induction cs as [|c cs IH] using rev_ind; intros P HF E.
  - inversion E; subst. ands.
    + apply empty_wf.
    + reflexivity.
    + intros sr. split; [|intros [u [H _]]; destruct (live_nil _ H)].
      intros [s [r [ls [H _]]]]. cbn in H. destruct (s_from sr); discriminate.
  - apply Forall_app in HF. destruct HF as [HF Hc]. inversion Hc as [|c0 l Hc0 _]; subst.
    unfold do_calls in E. rewrite ofold_app in E. apply obind_Some in E. destruct E as [P1 [E1 E2]].
    destruct (IH _ HF E1) as [W [Hl HR]]. destruct c as [u|s]; cbn in E2.
    + inversion E2; subst. ands.
      * apply add_urule_wf; auto.
      * apply add_urule_nlab.
      * intros sr. rewrite add_urule_rules by auto. rewrite HR. split.
        -- intros [[u' [H1 H2]]|[u' [[<-|[]] H]]].
           ++ exists u'. split; auto. apply live_snoc. right. split; auto. discriminate.
           ++ exists u. split; [apply live_snoc; auto|]. auto.
        -- intros [u' [H1 H2]]. apply live_snoc in H1. destruct H1 as [H1|[H1 _]].
           ++ inversion H1; subst. right. exists u'. split; [left; auto|]. auto.
           ++ left. exists u'; auto.
    + destruct (clear_state P1 s) as [P2|] eqn:Ec; [|discriminate]. inversion E2; subst P2.
      assert (Hs: s < pd_n P1). { unfold clear_state in Ec. destruct (nth_error (pd_states P1) s) eqn:En; [|discriminate]. eapply nth_error_lt; eauto. }
      destruct (clear_state_spec P1 s W Hs) as [P2 [Ec' [Hn [Hl' [HA HP]]]]]. rewrite Ec in Ec'. inversion Ec'; subst P2. ands.
      * eapply clear_state_wf; eauto.
      * congruence.
      * intros sr. rewrite pda_rules_at. rewrite HA. split.
        -- intros [r [ls [Hin [H1 [H2 H3]]]]]. destruct (Nat.eqb_spec (s_from sr) s) as [|Hne]; [destruct Hin|].
           apply filter_In in Hin. destruct Hin as [Hin Hk]. unfold keep in Hk. apply negb_true_iff, Nat.eqb_neq in Hk. cbn in Hk.
           assert (K: pda_rules P1 sr). { apply pda_rules_at. exists r, ls. rewrite <- Hl'. auto. }
           apply HR in K. destruct K as [u [K1 [K2 [K3 K4]]]]. exists u. split; auto. apply live_snoc. right. split; auto.
           intros s0 E0. inversion E0; subst s0. split; congruence.
        -- intros [u [K1 [K2 [K3 K4]]]]. apply live_snoc in K1. destruct K1 as [K1|[K1 K1']]; [discriminate|].
           destruct (K1' s eq_refl) as [N1 N2].
           assert (K: pda_rules P1 sr). { apply HR. exists u. auto. }
           apply pda_rules_at in K. destruct K as [r [ls [J1 [J2 [J3 J4]]]]]. exists r, ls. rewrite Hl'. ands; auto.
           destruct (Nat.eqb_spec (s_from sr) s); [congruence|]. apply filter_In. split; auto. unfold keep.
           apply negb_true_iff, Nat.eqb_neq. cbn. congruence.
Qed.
