(** PAutomatonFixedPoint: one step, the two phases, and the result. *)
From Coq Require Import List Arith Lia Bool ZArith Permutation.
From Verif Require Import Base BaseFacts Spec SpecFacts PdaModel PdaProof AutModel AutProof PreStarModel PreStarProof PreStarLang
  PostStarModel SolverModel ProductModel ProductProof UtilModel UtilProof ShortSpec ShortModel PostShortProof ReducerProof FixSpec FixModel FixChain FixPre1 FixPre2 FixPath.
Import ListNotations.

Lemma fwt_opt_dec : forall a b : option fwt, {a = b} + {a <> b}.
Proof. repeat decide equality. Qed.
Lemma fless_total : forall mx a b, f_less mx a b = false -> fle mx b a.
Proof. intros. exact H. Qed.

Section FixPath2.
  Variable n : nat.
  Variable mx : bool.
  Variable A : faut.
  Let N := a_size (fa_aut A).
  Hypothesis HnN : n <= N.
  Hypothesis HO : wf_ord (fa_aut A).
  Hypothesis RG : forall q l t, aut_edges (fa_aut A) q l t -> q < N /\ t < N.
  Notation E := (aut_edges (fa_aut A)).
  Notation wt := (fun x y z => fa_weight A (mk_edge x y z)).
  Notation fle := (fle mx).
  Notation gp := (gp n A).
  Notation real := (real n mx A).
  Notation unbS := (unbS n mx A).
  Notation zst := (fwst zd nat).
  Notation fin := (aut_final (fa_aut A)).

  Definition zs (st : zst) := z_states (fw_d st).
  Definition V (st : zst) (s : nat) : option fwt := match nth_error (zs st) s with Some i => si_w i | None => None end.
  Definition cov (st : zst) (s : nat) (u : fwt) : Prop := exists v, V st s = Some v /\ fle v u.
  Definition queue (st : zst) : list nat := fw_ws st ++ fw_next st.
  Definition bot (i : sinfo) : nat := match si_w i with Some None => 1 | _ => 0 end.
  Definition K (st : zst) : nat := list_sum (map bot (zs st)).
  Definition short (st : zst) : Prop := forall k u s, k < N -> gp k u s -> cov st s u.

  Record z0 (st : zst) : Prop := {
    zb_len : length (zs st) = N;
    zb_real : forall s v, V st s = Some v -> real s v;
    zb_inq : forall s i, nth_error (zs st) s = Some i -> (si_inq i = true <-> In s (queue st));
    zb_nd : NoDup (queue st);
    zb_in : forall s, In s (queue st) -> s < N /\ V st s <> None;
    zb_min : forall m, z_min (fw_d st) = Some m -> fin m /\ V st m <> None;
    zb_lim : fw_limit st = N;
    zb_done : fw_done st = false }.

  (** What the updates of one step do. *)
  Record zrel (b : bool) (st st' : zst) : Prop := {
    zr_ws : fw_ws st' = fw_ws st;
    zr_rd : fw_rounds st' = fw_rounds st;
    zr_min : z_min (fw_d st') = z_min (fw_d st);
    zr_next : exists k, fw_next st' = fw_next st ++ k /\ (b = true -> K st + length k <= K st');
    zr_mono : forall s v, V st s = Some v -> cov st' s v;
    zr_ch : forall s, V st' s <> V st s -> In s (queue st') }.
  Lemma zrel_refl : forall b st, zrel b st st.
  Proof. intros b st. constructor; auto; [exists []; rewrite app_nil_r; split; auto; cbn; lia|intros s v H; exists v; split; auto; apply fle_refl|congruence]. Qed.
  Lemma cov_mono : forall b st st' s v, zrel b st st' -> cov st s v -> cov st' s v.
  Proof. intros b st st' s v R (u & H1 & H2). destruct (zr_mono _ _ _ R _ _ H1) as (x & X1 & X2). exists x. split; auto. eapply fle_trans; eauto. Qed.
  Lemma cov_le : forall st s u v, cov st s u -> fle u v -> cov st s v.
  Proof. intros st s u v (x & H1 & H2) H. exists x. split; auto. eapply fle_trans; eauto. Qed.
  Lemma queue_mono : forall b st st' s, zrel b st st' -> In s (queue st) -> In s (queue st').
  Proof. intros b st st' s R H. unfold queue in *. destruct (zr_next _ _ _ R) as (k & -> & _). rewrite (zr_ws _ _ _ R). rewrite !in_app_iff in *. tauto. Qed.
  Lemma zrel_trans : forall b s1 s2 s3, zrel b s1 s2 -> zrel b s2 s3 -> zrel b s1 s3.
  Proof.
    intros b s1 s2 s3 R1 R2. constructor.
    - rewrite (zr_ws _ _ _ R2). apply R1.
    - rewrite (zr_rd _ _ _ R2). apply R1.
    - rewrite (zr_min _ _ _ R2). apply R1.
    - destruct (zr_next _ _ _ R1) as (k1 & E1 & K1), (zr_next _ _ _ R2) as (k2 & E2 & K2). exists (k1 ++ k2). rewrite E2, E1, app_assoc. split; auto. intros B. rewrite app_length. specialize (K1 B). specialize (K2 B). lia.
    - intros s v H. destruct (zr_mono _ _ _ R1 _ _ H) as (x & X1 & X2). apply (cov_le _ _ x); auto. apply R2; auto.
    - intros s H. destruct (fwt_opt_dec (V s3 s) (V s2 s)) as [Q|Q]; [|apply R2; auto]. eapply queue_mono; eauto. apply R1. congruence.
  Qed.
  Lemma short_mono : forall b st st', zrel b st st' -> short st -> short st'.
  Proof. intros b st st' R H k u s L G. eapply cov_mono; eauto. Qed.

  Lemma min_lab_spec : forall q t ls best, let r := min_lab mx A best q t ls in
    snd best = wt q (fst best) t -> (fst r = fst best \/ In (fst r) ls) /\ snd r = wt q (fst r) t /\ fle (snd r) (snd best) /\ forall l, In l ls -> fle (snd r) (wt q l t).
  Proof.
    intros q t ls. induction ls as [|l ls IH]; intros best r Hb; cbn in r; unfold r; clear r; [ands; auto; [apply fle_refl|intros l []]|].
    destruct (f_less mx (fa_weight A (mk_edge q l t)) (snd best)) eqn:L.
    - destruct (IH (l, fa_weight A (mk_edge q l t)) eq_refl) as (I1 & I2 & I3 & I4). cbn [fst snd] in *. ands; auto.
      + destruct I1 as [->|I1]; [right; left; auto|right; right; auto].
      + eapply fle_trans; [exact I3|]. apply f_less_fle; auto.
      + intros l' [<-|H]; auto.
    - destruct (IH best Hb) as (I1 & I2 & I3 & I4). ands; auto.
      + destruct I1 as [->|I1]; [left; auto|right; right; auto].
      + intros l' [<-|H]; auto. eapply fle_trans; [exact I3|]. exact L.
  Qed.

  (** A better weight for a state. *)
  Lemma z_target_spec : forall b c st t v, z0 st -> V st c = Some v -> (exists l, E c l t) -> (b = true -> short st) ->
    exists st', z_target mx A b c st t = Some st' /\ z0 st' /\ zrel b st st' /\ forall l, E c l t -> cov st' t (f_add v (wt c l t)).
  Proof.
    intros b c st t v Z Hc (l0 & He) SH. unfold z_target. assert (Hl : In l0 (labels_between (fa_aut A) c t)) by (apply labels_between_In; auto).
    destruct (labels_between (fa_aut A) c t) as [|l ls] eqn:EL; [destruct Hl|]. clear l0 He Hl.
    assert (IL : forall x, E c x t <-> In x (l :: ls)) by (intros x; rewrite <- EL; symmetry; apply labels_between_In).
    destruct (min_lab_spec c t ls (l, fa_weight A (mk_edge c l t)) eq_refl) as (M1 & M2 & M3 & M4).
    set (lw := min_lab mx A (l, fa_weight A (mk_edge c l t)) c t ls) in *. cbn [fst snd] in M1, M3.
    assert (Em : E c (fst lw) t) by (apply IL; destruct M1 as [->|M1]; [left|right]; auto).
    assert (BE : forall x, E c x t -> fle (f_add v (snd lw)) (f_add v (wt c x t))).
    { intros x Hx. apply fle_add; [apply fle_refl|]. apply IL in Hx. destruct Hx as [<-|Hx]; auto. }
    destruct (RG _ _ _ Em) as [Lc Lt].
    unfold V in Hc. fold (zs st). destruct (nth_error (zs st) c) as [sc|] eqn:Ec; [|discriminate]. cbn [obind]. rewrite Hc. cbn [obind].
    destruct (nth_error (zs st) t) as [sto|] eqn:Et; [|apply nth_error_None in Et; rewrite (zb_len _ Z) in Et; lia]. cbn [obind].
    assert (Vt : V st t = si_w sto) by (unfold V; rewrite Et; auto).
    assert (Vc : V st c = Some v) by (unfold V; rewrite Ec; auto).
    destruct (z_less mx (f_add v (snd lw)) (si_w sto)) eqn:LE.
    - set (s' := mk_si _ _ _ _). set (tw := f_add v (snd lw)) in *.
      assert (RT : real t tw) by (unfold tw; rewrite M2; apply real_edge; auto; apply (zb_real _ Z); auto).
      assert (RB : real t (if b then None else tw)).
      { destruct b; auto. split; [apply RT|]. destruct tw as [x|] eqn:Etw; [|apply RT]. destruct RT as [_ [(k & G)|[D _]]]; [|discriminate].
        destruct (walk n mx A HnN RG k x t G) as [(k' & y & K1 & K2 & K3)|U]; [|right; auto]. exfalso.
        destruct (SH eq_refl _ _ _ K1 K2) as (u & U1 & U2). rewrite Vt in U1. rewrite U1 in LE. cbn [z_less] in LE.
        assert (Q : fle u (Some x)) by (eapply fle_trans; [exact U2|]; apply fle_spec; auto). unfold FixPre1.fle in Q. congruence. }
      assert (SW : si_w s' = Some (if b then None else tw)) by reflexivity.
      set (d' := mk_zd (upd (zs st) t s') (z_min (fw_d st))). set (st1 := z_set st d').
      set (st' := if si_inq sto then st1 else mk_fw (fw_done st1) (fw_limit st1) (fw_rounds st1) (fw_ws st1) (fw_next st1 ++ [t]) (fw_d st1)).
      assert (D' : fw_d st' = d') by (unfold st'; destruct (si_inq sto); auto).
      assert (Vn : forall s, V st' s = if Nat.eqb s t then Some (if b then None else tw) else V st s).
      { intros s. unfold V, zs. rewrite D'. cbn [d' z_states]. destruct (Nat.eqb_spec s t) as [->|Ne].
        - rewrite nth_error_upd_eq by (rewrite (zb_len _ Z); auto). auto.
        - rewrite nth_error_upd_neq by auto. auto. }
      assert (QN : exists k, fw_next st' = fw_next st ++ k /\ length k <= 1 /\ (forall x, In x k -> x = t) /\ NoDup (queue st') /\ In t (queue st') /\ fw_ws st' = fw_ws st).
      { assert (I := zb_inq _ Z _ _ Et). unfold st', queue. destruct (si_inq sto) eqn:Eq.
        - exists []. rewrite app_nil_r. cbn. ands; auto; [intros x []|apply Z|apply I; auto].
        - exists [t]. cbn. ands; auto; [intros x [<-|[]]; auto| |rewrite !in_app_iff; cbn; auto].
          rewrite app_assoc. apply NoDup_app2; [apply Z|constructor; [intros []|constructor]|]. intros x Hx [<-|[]]. apply I in Hx. congruence. }
      destruct QN as (k & Q1 & Q2 & Q3 & Q4 & Q5 & Q6).
      assert (QI : forall s, In s (queue st') <-> In s (queue st) \/ s = t).
      { intros s. split.
        - unfold queue. rewrite Q6, Q1, !in_app_iff. intros [H|[H|H]]; auto.
        - intros [H| ->]; auto. unfold queue in *. rewrite Q6, Q1, !in_app_iff in *. tauto. }
      assert (Zn : z0 st').
      { constructor.
        - unfold zs. rewrite D'. cbn. rewrite upd_length. apply Z.
        - intros s u Hu. rewrite Vn in Hu. destruct (Nat.eqb_spec s t) as [->|Ne]; [injection Hu as <-; auto|apply (zb_real _ Z); auto].
        - intros s i Hi. unfold zs in Hi. rewrite D' in Hi. cbn [d' z_states] in Hi. rewrite QI. destruct (Nat.eq_dec s t) as [->|Ne].
          + rewrite nth_error_upd_eq in Hi by (rewrite (zb_len _ Z); auto). injection Hi as <-. cbn. tauto.
          + rewrite nth_error_upd_neq in Hi by auto. rewrite (zb_inq _ Z _ _ Hi). intuition.
        - auto.
        - intros s Hs. rewrite Vn. apply QI in Hs. destruct (Nat.eqb_spec s t) as [->|Ne]; [split; auto; discriminate|]. destruct Hs as [Hs|Hs]; [apply Z; auto|congruence].
        - intros m Hm. rewrite D' in Hm. cbn in Hm. destruct (zb_min _ Z m Hm) as [F1 F2]. split; auto. rewrite Vn. destruct (Nat.eqb m t); auto; discriminate.
        - unfold st'. destruct (si_inq sto); apply Z.
        - unfold st'. destruct (si_inq sto); apply Z. }
      assert (BL : fle (if b then None else tw) tw) by (destruct b; [apply fle_None|apply fle_refl]).
      exists st'. split; [reflexivity|]. split; auto. split.
      + constructor; auto.
        * unfold st'; destruct (si_inq sto); auto.
        * rewrite D'. reflexivity.
        * exists k. split; auto. intros ->. unfold K. unfold zs at 2. rewrite D'. cbn [d' z_states].
          assert (SU := sum_upd _ bot (zs st) t sto s' Et). assert (B1 : bot s' = 1) by reflexivity.
          assert (B0 : bot sto = 0). { unfold bot. destruct (si_w sto) as [[y|]|]; auto. cbn in LE. destruct tw; discriminate. } lia.
        * intros s u Hu. unfold cov. rewrite Vn. destruct (Nat.eqb_spec s t) as [->|Ne]; [|exists u; split; auto; apply fle_refl].
          eexists. split; [reflexivity|]. rewrite Vt in Hu. rewrite Hu in LE. cbn [z_less] in LE. eapply fle_trans; [exact BL|]. apply f_less_fle; auto.
        * intros s Hs. destruct (Nat.eq_dec s t) as [Es|Ne]; [rewrite Es; auto|]. rewrite Vn in Hs. apply Nat.eqb_neq in Ne. rewrite Ne in Hs. congruence.
      + intros x Hx. exists (if b then None else tw). rewrite Vn, Nat.eqb_refl. split; auto. eapply fle_trans; [exact BL|]. apply BE; auto.
    - exists st. split; [reflexivity|]. split; auto. split; [apply zrel_refl|]. intros x Hx. unfold cov. rewrite Vt. destruct (si_w sto) as [u|]; [|discriminate].
      exists u. split; auto. eapply fle_trans; [|apply BE; auto]. exact LE.
  Qed.

  Lemma z_loop_spec : forall b c v0 ts st, z0 st -> cov st c v0 -> (forall t, In t ts -> exists l, E c l t) -> (b = true -> short st) ->
    exists st', ofold (z_target mx A b c) ts st = Some st' /\ z0 st' /\ zrel b st st' /\ forall t l, In t ts -> E c l t -> cov st' t (f_add v0 (wt c l t)).
  Proof.
    intros b c v0 ts. induction ts as [|t ts IH]; intros st Z (v & Hv & Lv) HT SH; cbn; [exists st; ands; auto using zrel_refl; intros t l []|].
    destruct (z_target_spec b c st t v Z Hv (HT t (or_introl eq_refl)) SH) as (s1 & -> & Z1 & R1 & C1). cbn [obind].
    destruct (IH s1 Z1) as (s2 & E2 & Z2 & R2 & C2); auto.
    { apply (cov_le _ _ v); auto. apply (zr_mono _ _ _ R1); auto. }
    { intros t' H. apply HT. right; auto. }
    { intros B. eapply short_mono; eauto. }
    exists s2. ands; auto; [eapply zrel_trans; eauto|]. intros t' l [<-|H] He; [|apply C2; auto].
    eapply cov_mono; [exact R2|]. eapply cov_le; [apply (C1 l); auto|]. apply fle_add; auto using fle_refl.
  Qed.

  (** Outcome of a step that pops c. *)
  Record out (b : bool) (c : nat) (st st' : zst) : Prop := {
    o_z0 : z0 st';
    o_ws : fw_ws st = c :: fw_ws st';
    o_rd : fw_rounds st' = fw_rounds st;
    o_next : exists k, fw_next st' = fw_next st ++ k /\ (b = true -> K st + length k <= K st');
    o_mono : forall s v, V st s = Some v -> cov st' s v;
    o_ch : forall s, V st' s <> V st s -> In s (queue st');
    o_cov : forall v t l, V st c = Some v -> E c l t -> cov st' t (f_add v (wt c l t));
    o_min : forall m, z_min (fw_d st) = Some m -> exists m', z_min (fw_d st') = Some m' /\ forall v, V st m = Some v -> cov st' m' v;
    o_acc : fin c -> exists m', z_min (fw_d st') = Some m' /\ forall v, V st c = Some v -> cov st' m' v }.
  (** The computation has found bottom for an accepting state. *)
  Definition infinite (st : zst) : Prop := (forall s v, V st s = Some v -> real s v) /\ exists m, z_min (fw_d st) = Some m /\ fin m /\ V st m = Some None.

  Lemma z_go_spec : forall b st c ws, z0 st -> fw_ws st = c :: ws -> (b = true -> short st) ->
    exists st', fw_go zd nat (z_step_with mx A) b st = Some st' /\ ((fw_done st' = true /\ infinite st' /\ fw_rounds st' = fw_rounds st /\ fw_ws st' = ws) \/ out b c st st').
  Proof.
    intros b st c ws Z Ew SH. unfold fw_go. rewrite Ew. set (sp := mk_fw _ _ _ _ _ _). unfold z_step_with.
    assert (IQ : In c (queue st)) by (unfold queue; rewrite Ew; left; auto).
    destruct (zb_in _ Z c IQ) as [Lc Hv]. assert (ND := zb_nd _ Z). unfold queue in ND. rewrite Ew in ND. cbn in ND. apply NoDup_cons_iff in ND. destruct ND as [Nin ND].
    change (z_states (fw_d sp)) with (zs st). destruct (nth_error (zs st) c) as [sc|] eqn:Ec; [|unfold V in Hv; rewrite Ec in Hv; congruence]. cbn [obind].
    assert (Vc : V st c = si_w sc) by (unfold V; rewrite Ec; auto). destruct (si_w sc) as [cw|] eqn:Ecw; [|congruence]. cbn [obind]. clear Hv.
    destruct (accepting (fa_aut A) c) as [acc|] eqn:Ea; [|unfold accepting in Ea; apply nth_error_None in Ea; change (N <= c) in Ea; lia]. cbn [obind].
    assert (FA : fin c <-> acc = true) by (unfold aut_final; unfold accepting in Ea; rewrite Ea; split; intros H; [injection H as ->|subst]; auto).
    set (i' := mk_si (Some cw) _ _ false). set (d0 := upd (zs st) c i').
    assert (V0 : forall m s, V (z_set sp (mk_zd d0 m)) s = V st s).
    { intros m s. unfold V, zs. cbn [z_set fw_d z_states]. unfold d0. destruct (Nat.eq_dec s c) as [->|Ne].
      - rewrite nth_error_upd_eq by (rewrite (zb_len _ Z); auto). fold (zs st). rewrite Ec. cbn. auto.
      - rewrite nth_error_upd_neq by auto. reflexivity. }
    assert (ZM : forall m, (forall x, m = Some x -> fin x /\ V st x <> None) -> z0 (z_set sp (mk_zd d0 m))).
    { intros m Hm. constructor.
      - unfold zs. cbn. unfold d0. rewrite upd_length. apply Z.
      - intros s v. rewrite V0. apply Z.
      - intros s i Hi. unfold zs in Hi. cbn [z_set fw_d z_states] in Hi. unfold d0 in Hi. unfold queue. cbn [z_set sp fw_ws fw_next]. destruct (Nat.eq_dec s c) as [->|Ne].
        + rewrite nth_error_upd_eq in Hi by (rewrite (zb_len _ Z); auto). injection Hi as <-. cbn [i' si_inq]. split; [discriminate|contradiction].
        + rewrite nth_error_upd_neq in Hi by auto. rewrite (zb_inq _ Z _ _ Hi). unfold queue. rewrite Ew. cbn. intuition congruence.
      - exact ND.
      - intros s Hs. rewrite V0. apply Z. unfold queue. rewrite Ew. right. exact Hs.
      - intros x Hx. cbn in Hx. rewrite V0. auto.
      - apply Z.
      - apply Z. }
    assert (LOOP : forall m, (forall x, m = Some x -> fin x /\ V st x <> None) ->
      (forall m0, z_min (fw_d st) = Some m0 -> exists m', m = Some m' /\ forall v, V st m0 = Some v -> cov st m' v) ->
      (fin c -> exists m', m = Some m' /\ cov st m' cw) ->
      exists st', (r <- (st' <- ofold (z_target mx A b c) (tos (fa_aut A) c) (z_set sp (mk_zd d0 m)) ;; Some (st', true)) ;; Some (if (snd r : bool) then fst r else fw_set_done zd nat (fst r))) = Some st' /\ out b c st st').
    { intros m M1 M2 M3. set (s1 := z_set sp (mk_zd d0 m)). assert (Z1 : z0 s1) by (apply ZM; auto).
      assert (C1 : forall s v, cov st s v -> cov s1 s v) by (intros s v (u & U1 & U2); exists u; split; auto; unfold s1; rewrite V0; auto).
      destruct (z_loop_spec b c cw (tos (fa_aut A) c) s1 Z1) as (s2 & -> & Z2 & R2 & C2).
      { apply C1. exists cw. split; auto. apply fle_refl. }
      { intros t Ht. apply tos_In in Ht; auto. }
      { intros B k u s L G. apply C1. apply (SH B k); auto. }
      cbn [obind fst snd]. exists s2. split; [reflexivity|]. constructor; auto.
      - rewrite (zr_ws _ _ _ R2). exact Ew.
      - rewrite (zr_rd _ _ _ R2). reflexivity.
      - destruct (zr_next _ _ _ R2) as (k & K1 & K2). exists k. split; [exact K1|]. intros B. specialize (K2 B). assert (KE : K s1 = K st).
        { unfold K. unfold s1, zs. cbn [z_set fw_d z_states]. unfold d0. assert (SU := sum_upd _ bot (zs st) c sc i' Ec). assert (bot i' = bot sc) by (unfold bot; rewrite Ecw; reflexivity). fold (zs st). lia. }
        lia.
      - intros s v Hs. apply (zr_mono _ _ _ R2). unfold s1. rewrite V0. auto.
      - intros s Hs. apply (zr_ch _ _ _ R2). unfold s1. rewrite V0. auto.
      - intros v t l Hvc He. assert (v = cw) by congruence. subst v. apply C2; auto. apply tos_In; eauto.
      - intros m0 Hm. destruct (M2 m0 Hm) as (m' & -> & Hc). exists m'. split; [rewrite (zr_min _ _ _ R2); reflexivity|]. intros v Hvm. eapply cov_mono; eauto.
      - intros Hf. destruct (M3 Hf) as (m' & -> & Hc). exists m'. split; [rewrite (zr_min _ _ _ R2); reflexivity|]. intros v Hvm. assert (v = cw) by congruence. subst v. eapply cov_mono; eauto. }
    assert (CR : forall m v, V st m = Some v -> cov st m v) by (intros m v Hm; exists v; split; auto; apply fle_refl).
    destruct acc.
    - assert (HF : fin c) by (apply FA; auto). assert (Vn : V st c <> None) by congruence. destruct cw as [x|].
      + cbn [z_set fw_d z_min]. change (z_min (fw_d sp)) with (z_min (fw_d st)). destruct (z_min (fw_d st)) as [m|] eqn:Em.
        * destruct (zb_min _ Z m Em) as [Fm Vm]. destruct (V st m) as [vm|] eqn:Evm; [|congruence].
          assert (Hm : V (z_set sp (mk_zd d0 (Some m))) m = Some vm) by (rewrite V0; auto). unfold V in Hm. cbn [z_set fw_d z_states] in Hm.
          cbn [z_states]. change (zs (z_set sp (mk_zd d0 (Some m)))) with d0 in Hm. destruct (nth_error d0 m) as [sm|]; [|discriminate]. cbn [obind]. rewrite Hm.
          cbn [z_less obind]. destruct (f_less mx (Some x) vm) eqn:LE.
          -- destruct (LOOP (Some c)) as (st' & L1 & L2).
             { intros y Hy. injection Hy as <-. auto. }
             { intros m0 Hm0. injection Hm0 as <-. exists c. split; auto. intros v Hvm. assert (v = vm) by congruence. subst v. exists (Some x). split; auto. apply f_less_fle; auto. }
             { intros _. exists c. split; auto. }
             exists st'. split; [exact L1|]. right. exact L2.
          -- destruct (LOOP (Some m)) as (st' & L1 & L2).
             { intros y Hy. injection Hy as <-. split; auto. congruence. }
             { intros m0 Hm0. injection Hm0 as <-. exists m. split; auto. }
             { intros _. exists m. split; auto. exists vm. split; auto. }
             exists st'. split; [exact L1|]. right. exact L2.
        * cbn [obind]. destruct (LOOP (Some c)) as (st' & L1 & L2).
          { intros y Hy. injection Hy as <-. auto. }
          { discriminate. }
          { intros _. exists c. split; auto. }
          exists st'. split; [exact L1|]. right. exact L2.
      + cbn [obind fst snd]. eexists. split; [reflexivity|]. left. split; [reflexivity|]. split; [|split; reflexivity]. assert (EV : forall s, V (fw_set_done zd nat (z_set (z_set sp (mk_zd d0 (z_min (fw_d sp)))) (mk_zd d0 (Some c)))) s = V st s) by (intros s; apply (V0 (Some c))).
        split; [intros s v; rewrite EV; apply Z|]. exists c. split; [reflexivity|]. split; auto. rewrite EV. auto.
    - destruct (LOOP (z_min (fw_d st))) as (st' & L1 & L2).
      { intros y Hy. apply (zb_min _ Z); auto. }
      { intros m0 Hm0. exists m0. split; auto. }
      { intros Hf. apply FA in Hf. discriminate. }
      exists st'. split; [exact L1|]. right. exact L2.
  Qed.

  (** *** Closure *)
  Record zc (st : zst) : Prop := {
    zc_clo : forall s v l t, ~ In s (queue st) -> V st s = Some v -> E s l t -> cov st t (f_add v (wt s l t));
    zc_acc : forall s v, ~ In s (queue st) -> fin s -> V st s = Some v -> exists m, z_min (fw_d st) = Some m /\ cov st m v;
    zc_init : forall s, s < n -> cov st s (Some 0%Z) }.
  Lemma o_covm : forall b c st st' s v, out b c st st' -> cov st s v -> cov st' s v.
  Proof. intros b c st st' s v R (u & H1 & H2). destruct (o_mono _ _ _ _ R _ _ H1) as (x & X1 & X2). exists x. split; auto. eapply fle_trans; eauto. Qed.
  Lemma o_queue : forall b c st st' s, out b c st st' -> s <> c -> In s (queue st) -> In s (queue st').
  Proof.
    intros b c st st' s R Ne H. unfold queue in *. destruct (o_next _ _ _ _ R) as (k & -> & _). rewrite (o_ws _ _ _ _ R) in H. cbn in H. rewrite !in_app_iff in *. destruct H as [->|H]; tauto.
  Qed.
  Lemma out_zc : forall b c st st', out b c st st' -> zc st -> zc st'.
  Proof.
    intros b c st st' R Z.
    assert (SAME : forall s, ~ In s (queue st') -> V st' s = V st s).
    { intros s Hs. destruct (fwt_opt_dec (V st' s) (V st s)); auto. exfalso. apply Hs. apply (o_ch _ _ _ _ R); auto. }
    constructor.
    - intros s v l t Hs Hv He. rewrite (SAME s Hs) in Hv. destruct (Nat.eq_dec s c) as [->|Ne]; [apply (o_cov _ _ _ _ R); auto|].
      eapply o_covm; eauto. apply (zc_clo _ Z); auto. intros H. apply Hs. eapply o_queue; eauto.
    - intros s v Hs Hf Hv. rewrite (SAME s Hs) in Hv. destruct (Nat.eq_dec s c) as [->|Ne].
      + destruct (o_acc _ _ _ _ R Hf) as (m & M1 & M2). eauto.
      + destruct (zc_acc _ Z s v) as (m & M1 & M2); auto. { intros H. apply Hs. eapply o_queue; eauto. }
        destruct (o_min _ _ _ _ R m M1) as (m' & M3 & M4). exists m'. split; auto. destruct M2 as (u & U1 & U2). eapply cov_le; [apply M4; eauto|]. auto.
    - intros s Hs. eapply o_covm; eauto. apply Z; auto.
  Qed.

  Definition refill (st : zst) : zst := mk_fw (fw_done st) (fw_limit st) (S (fw_rounds st)) (rev (fw_next st)) [] (fw_d st).
  Lemma refill_queue : forall st s, fw_ws st = [] -> (In s (queue (refill st)) <-> In s (queue st)).
  Proof. intros st s W. unfold queue. rewrite W. cbn. rewrite app_nil_r, <- in_rev. tauto. Qed.
  Lemma refill_z0 : forall st, fw_ws st = [] -> z0 st -> z0 (refill st).
  Proof.
    intros st W Z. constructor; try apply Z.
    - intros s i Hi. rewrite refill_queue by auto. apply Z; auto.
    - unfold queue. cbn. rewrite app_nil_r. apply NoDup_rev. assert (H := zb_nd _ Z). unfold queue in H. rewrite W in H. exact H.
    - intros s Hs. apply (refill_queue st s W) in Hs. apply (zb_in _ Z); auto.
  Qed.
  Lemma refill_zc : forall st, fw_ws st = [] -> zc st -> zc (refill st).
  Proof.
    intros st W Z. constructor.
    - intros s v l t Hs. rewrite (refill_queue st s W) in Hs. apply (zc_clo _ Z); auto.
    - intros s v Hs. rewrite (refill_queue st s W) in Hs. apply (zc_acc _ Z); auto.
    - apply Z.
  Qed.

  (** *** What the result means *)
  Definition fini (st : zst) : Prop :=
    (forall s v, V st s = Some v -> real s v) /\ (forall m, z_min (fw_d st) = Some m -> fin m /\ V st m <> None) /\
    (infinite st \/ ((forall s v l t, V st s = Some v -> E s l t -> cov st t (f_add v (wt s l t))) /\
                     (forall s v, fin s -> V st s = Some v -> exists m, z_min (fw_d st) = Some m /\ cov st m v) /\
                     (forall s, s < n -> cov st s (Some 0%Z)))).
  Lemma infinite_fini : forall st, infinite st -> fini st.
  Proof. intros st H. assert (H' := H). destruct H' as (H1 & m & H2 & H3 & H4). split; auto. split; auto. intros m' Hm. assert (m' = m) by congruence. subst m'. split; auto. congruence. Qed.
  Lemma settled_fini : forall st, z0 st -> zc st -> queue st = [] -> fini st.
  Proof.
    intros st Z C Q. assert (NQ : forall s, ~ In s (queue st)) by (intros s; rewrite Q; intros []). split; [apply Z|]. split; [apply Z|]. right. ands.
    - intros s v l t. apply (zc_clo _ C); auto.
    - intros s v. apply (zc_acc _ C); auto.
    - apply C.
  Qed.
  Lemma fini_d : forall st st', fini st -> fw_d st' = fw_d st -> fini st'.
  Proof.
    intros st st' F D. assert (EV : forall s, V st' s = V st s) by (intros s; unfold V, zs; rewrite D; auto).
    assert (EC : forall s u, cov st s u -> cov st' s u) by (intros s u; unfold cov; rewrite EV; auto).
    destruct F as (F1 & F2 & F3). split; [intros s v; rewrite EV; auto|]. split; [intros m; rewrite D, EV; auto|].
    destruct F3 as [(I1 & m & I2 & I3 & I4)|(G1 & G2 & G3)].
    - left. split; [intros s v; rewrite EV; auto|]. exists m. rewrite D, EV. auto.
    - right. ands; auto.
      + intros s v l t. rewrite EV. intros; apply EC; eauto.
      + intros s v Hf. rewrite EV, D. intros H. destruct (G2 s v Hf H) as (m & M1 & M2). eauto.
  Qed.

  (** *** First phase *)
  Definition I1 (st : zst) : Prop := forall k u s, k < fw_rounds st -> gp k u s -> cov st s u.
  Definition I2 (st : zst) : Prop := forall k u s l t, k < fw_rounds st -> gp k u s -> ~ In s (fw_ws st) -> E s l t -> cov st t (f_add u (wt s l t)).
  Record ph1 (st : zst) : Prop := { p1_z : z0 st; p1_c : zc st; p1_1 : I1 st; p1_2 : I2 st }.
  Notation start := (start zd nat).
  Notation step b st := (fw_step zd nat (fun l => l) (z_step_with mx A) b st).
  Definition Inv1 (st : zst) : Prop := ph1 st /\ fw_rounds st <= N.
  Definition Fin1 (st : zst) : Prop := (fw_done st = true /\ fini st) \/ (fw_done st = false /\ fw_rounds st = N /\ z0 st /\ zc st /\ short st).

  Lemma ph1_out : forall c st st', ph1 st -> out false c st st' -> ph1 st'.
  Proof.
    intros c st st' [Z C H1 H2] R. constructor; [apply R|eapply out_zc; eauto| |].
    - intros k u s L G. rewrite (o_rd _ _ _ _ R) in L. eapply o_covm; eauto.
    - intros k u s l t L G Ns He. rewrite (o_rd _ _ _ _ R) in L. destruct (Nat.eq_dec s c) as [->|Ne].
      + destruct (H1 k u c L G) as (v & V1 & V2). eapply cov_le; [apply (o_cov _ _ _ _ R v t l); auto|]. apply fle_add; auto using fle_refl.
      + eapply o_covm; eauto. apply (H2 k u s l t); auto. rewrite (o_ws _ _ _ _ R). intros [H|H]; [congruence|contradiction].
  Qed.
  Lemma ph1_refill : forall st, ph1 st -> fw_ws st = [] -> ph1 (refill st).
  Proof.
    intros st [Z C H1 H2] W. assert (H : I1 (refill st)).
    { intros k u s L G. cbn in L. change (cov st s u). destruct G as [s Hs|k u s l t G He]; [apply C; auto|]. apply (H2 k u s l t); auto; [lia|]. rewrite W. auto. }
    constructor; auto using refill_z0, refill_zc. intros k u s l t L G Ns He. destruct (H k u s L G) as (v & V1 & V2).
    eapply cov_le; [apply (zc_clo _ (refill_zc st W C) s v l t); auto|].
    { unfold queue. cbn. rewrite app_nil_r. exact Ns. }
    apply fle_add; auto using fle_refl.
  Qed.
  Lemma ph1_short : forall st, ph1 st -> fw_rounds st = N -> short st.
  Proof. intros st P R k u s L G. apply (p1_1 _ P k); auto. rewrite R. auto. Qed.

  Lemma phase1_step : forall st, Inv1 st -> fw_is_done zd nat st = false -> exists st', step false st = Some st' /\ start Inv1 Fin1 st' /\
    (fw_rounds st < fw_rounds st' \/ (fw_rounds st' = fw_rounds st /\ length (fw_ws st') < length (fw_ws st))).
  Proof.
    intros st [P LR] ND. unfold fw_is_done in ND. apply orb_false_iff in ND. destruct ND as [D0 NR]. rewrite (zb_lim _ (p1_z _ P)) in NR. apply Nat.eqb_neq in NR.
    assert (GO : forall s0 c ws, ph1 s0 -> fw_rounds s0 <= N -> fw_ws s0 = c :: ws -> exists st', fw_go zd nat (z_step_with mx A) false s0 = Some st' /\ start Inv1 Fin1 st' /\
       fw_rounds st' = fw_rounds s0 /\ length (fw_ws st') < length (fw_ws s0)).
    { intros s0 c ws P0 L0 W0. destruct (z_go_spec false s0 c ws (p1_z _ P0) W0) as (st' & E1 & [(D1 & D2 & D3 & D4)|O]); [discriminate| |]; (exists st'; split; [exact E1|]).
      - split; [left; split; [unfold fw_is_done; rewrite D1; auto|left; split; auto using infinite_fini]|]. rewrite D4, W0. cbn. split; auto.
      - assert (P1 := ph1_out c s0 st' P0 O). assert (RR := o_rd _ _ _ _ O). split.
        + assert (DD : fw_done st' = false) by apply (p1_z _ P1). assert (LL : fw_limit st' = N) by apply (p1_z _ P1).
          destruct (Nat.eq_dec (fw_rounds st') N) as [En|En].
          * left. split; [unfold fw_is_done; rewrite LL, En, Nat.eqb_refl; apply orb_true_r|]. right. ands; auto; [apply P1|apply P1|apply ph1_short; auto].
          * right. split; [unfold fw_is_done; rewrite LL, DD; apply Nat.eqb_neq in En; rewrite En; auto|]. split; auto. lia.
        + split; auto. rewrite (o_ws _ _ _ _ O). cbn. lia. }
    unfold fw_step. destruct (fw_ws st) as [|c ws] eqn:W.
    - destruct (fw_next st) as [|x nx] eqn:Nx.
      + eexists. split; [reflexivity|]. split; [|left; cbn; lia]. left. split; [reflexivity|]. left. split; [reflexivity|].
        apply (fini_d st); auto. apply settled_fini; try apply P. unfold queue. rewrite W, Nx. auto.
      + assert (HR : exists c ws, rev (x :: nx) = c :: ws). { destruct (rev (x :: nx)) as [|c ws] eqn:Er; [|eauto]. assert (Lr := rev_length (x :: nx)). rewrite Er in Lr. discriminate. }
        destruct HR as (c & ws & Er). destruct (GO (refill st) c ws) as (st' & E1 & E2 & E3 & E4); [apply ph1_refill; auto|cbn; lia|cbn; rewrite Nx; auto|].
        unfold refill in E1. rewrite Nx in E1. exists st'. split; [exact E1|]. split; auto. left. rewrite E3. cbn. lia.
    - destruct (GO st c ws) as (st' & E1 & E2 & E3 & E4); auto. exists st'. split; [exact E1|]. split; auto. right. rewrite <- W. auto.
  Qed.

  (** *** Second phase *)
  Lemma bots_all : forall l, length l <= list_sum (map bot l) -> forall s, s < length l -> match nth_error l s with Some i => si_w i | None => None end = Some None.
  Proof.
    induction l as [|i l IH]; intros H s Hs; cbn [length] in *; [lia|].
    cbn [map] in H. rewrite lsum_cons in H. assert (B : list_sum (map bot l) <= length l). { clear. induction l as [|i l IH]; cbn [map length]; [auto|]. rewrite lsum_cons. unfold bot at 1. destruct (si_w i) as [[?|]|]; lia. }
    assert (B1 : bot i <= 1) by (unfold bot; destruct (si_w i) as [[?|]|]; lia).
    destruct s; cbn [nth_error].
    - unfold bot in H at 1. destruct (si_w i) as [[?|]|]; auto; lia.
    - apply IH; lia.
  Qed.
  Lemma K_all : forall st, length (zs st) = N -> N <= K st -> forall s, s < N -> V st s = Some None.
  Proof. intros st L H s Hs. unfold V, K in *. apply bots_all; rewrite L; auto. Qed.
  Record ph2 (st : zst) : Prop := {
    p2_z : z0 st;
    p2_c : zc st;
    p2_s : short st;
    p2_k : 1 <= fw_rounds st -> length (fw_next st) <= K st;
    p2_k2 : 2 <= fw_rounds st -> fw_rounds st - 1 + length (fw_ws st) + length (fw_next st) <= K st;
    p2_n : 1 <= fw_rounds st -> z_min (fw_d st) = None -> forall s, In s (fw_next st) -> ~ fin s;
    p2_n2 : 2 <= fw_rounds st -> z_min (fw_d st) = None -> forall s, In s (fw_ws st) -> ~ fin s;
    p2_w : 1 <= fw_rounds st -> length (fw_ws st) < N }.
  (** Before the first state of a round is taken. *)
  Record ph2' (st : zst) : Prop := {
    q2_z : z0 st;
    q2_c : zc st;
    q2_s : short st;
    q2_k : 1 <= fw_rounds st -> length (fw_next st) <= K st;
    q2_k2 : 2 <= fw_rounds st -> fw_rounds st - 2 + length (fw_ws st) + length (fw_next st) <= K st;
    q2_n : 1 <= fw_rounds st -> z_min (fw_d st) = None -> forall s, In s (fw_next st) -> ~ fin s;
    q2_n2 : 2 <= fw_rounds st -> z_min (fw_d st) = None -> forall s, In s (fw_ws st) -> ~ fin s }.
  Lemma ph2_ph2' : forall st, ph2 st -> ph2' st.
  Proof. intros st [H1 H2 H3 H4 H5 H6 H7 H8]. constructor; auto. intros L. specialize (H5 L). lia. Qed.
  Lemma ph2_refill : forall st, ph2 st -> fw_ws st = [] -> fw_next st <> [] -> ph2' (refill st).
  Proof.
    intros st P W NE. constructor.
    - apply refill_z0; auto. apply P. - apply refill_zc; auto. apply P. - exact (p2_s _ P).
    - intros _. cbn. lia.
    - cbn [refill fw_rounds fw_ws fw_next]. rewrite rev_length. intros L. change (K (refill st)) with (K st). cbn [length].
      destruct (Nat.eq_dec (fw_rounds st) 1) as [E1|E1].
      + assert (H := p2_k _ P). rewrite E1 in *. lia.
      + assert (H := p2_k2 _ P). rewrite W in H. cbn [length] in H. lia.
    - intros _ _ s [].
    - cbn [refill fw_rounds fw_ws fw_d]. intros L M s Hs. rewrite <- in_rev in Hs. apply (p2_n _ P); auto. lia.
  Qed.
  Lemma ph2_out : forall c st st', ph2' st -> out true c st st' -> ph2 st'.
  Proof.
    intros c st st' P R. assert (Z' := o_z0 _ _ _ _ R). destruct (o_next _ _ _ _ R) as (k & K1 & K2). specialize (K2 eq_refl). assert (W := o_ws _ _ _ _ R).
    assert (RD := o_rd _ _ _ _ R).
    assert (MN : z_min (fw_d st') = None -> z_min (fw_d st) = None).
    { intros H. destruct (z_min (fw_d st)) as [m|] eqn:E1; auto. destruct (o_min _ _ _ _ R m E1) as (m' & M1 & _). congruence. }
    constructor.
    - apply R.
    - eapply out_zc; [exact R|]. apply P.
    - intros i u s L G. eapply o_covm; [exact R|]. apply (q2_s _ P i); auto.
    - rewrite RD, K1, app_length. intros L. apply (q2_k _ P) in L. lia.
    - rewrite RD, K1, app_length. intros L. apply (q2_k2 _ P) in L. rewrite W in L. cbn [length] in L. lia.
    - rewrite RD, K1. intros L M s Hs Hf. apply in_app_iff in Hs. destruct Hs as [Hs|Hs]; [apply (q2_n _ P L (MN M) s Hs Hf)|].
      destruct (Nat.eq_dec s c) as [->|Ne]; [destruct (o_acc _ _ _ _ R Hf) as (m & M1 & _); congruence|].
      assert (NQ : ~ In s (queue st)).
      { intros H. unfold queue in H. rewrite W in H. cbn in H. destruct H as [H|H]; [congruence|]. assert (ND := zb_nd _ Z'). unfold queue in ND. rewrite K1, app_assoc in ND. apply in_split in Hs. destruct Hs as (k1 & k2 & ->). rewrite app_assoc in ND. apply NoDup_remove_2 in ND. apply ND. rewrite !in_app_iff in *. tauto. }
      assert (Vs : V st s <> None).
      { assert (IQ : In s (queue st')) by (unfold queue; rewrite K1, !in_app_iff; auto). destruct (zb_in _ Z' s IQ) as [_ Hv]. destruct (V st' s) as [v|] eqn:Ev; [|congruence].
        destruct (zb_real _ Z' s v Ev) as [(i & u & G) _]. destruct (short_path n A HnN RG i u s G) as (i' & u' & L1 & G1). destruct (q2_s _ P i' u' s L1 G1) as (x & X1 & _). congruence. }
      destruct (V st s) as [v|] eqn:Ev; [|congruence]. destruct (zc_acc _ (q2_c _ P) s v NQ Hf Ev) as (m & M1 & _). rewrite (MN M) in M1. discriminate.
    - rewrite RD. intros L M s Hs. apply (q2_n2 _ P L (MN M)). rewrite W. right. auto.
    - intros _. assert (ND := zb_nd _ (q2_z _ P)). unfold queue in ND. assert (ND' : NoDup (fw_ws st)). { revert ND. generalize (fw_ws st) as l. intros l. induction l as [|a l IH]; cbn; intros ND; [constructor|]. apply NoDup_cons_iff in ND. destruct ND as [N1 N2]. constructor; auto. rewrite in_app_iff in N1. tauto. }
      assert (L : length (fw_ws st) <= length (seq 0 N)). { apply NoDup_incl_length; auto. intros x Hx. apply in_seq. assert (x < N); [|lia]. apply (zb_in _ (q2_z _ P)). unfold queue. apply in_app_iff. auto. }
      rewrite seq_length, W in L. cbn in L. lia.
  Qed.
  Lemma ph2_final : forall st, ph2 st -> fw_rounds st = N -> N <> 0 -> fini st.
  Proof.
    intros st P R NZ.
    assert (C : queue st = [] \/ N <= K st).
    { assert (H1 := p2_k _ P). assert (H2 := p2_k2 _ P). assert (H3 := p2_w _ P). unfold queue. destruct (fw_ws st) as [|a ws] eqn:W; destruct (fw_next st) as [|b nx] eqn:X; auto; right; cbn [length] in *; lia. }
    destruct C as [C|C]; [apply settled_fini; auto; apply P|].
    assert (AV := K_all st (zb_len _ (p2_z _ P)) C). assert (NQ : z_min (fw_d st) = None -> forall s, In s (queue st) -> ~ fin s).
    { intros M s Hs. unfold queue in Hs. apply in_app_iff in Hs. destruct Hs as [Hs|Hs]; [|apply (p2_n _ P); auto; lia]. assert (L := p2_w _ P). assert (1 <= length (fw_ws st)) by (destruct (fw_ws st); [destruct Hs|cbn; lia]). apply (p2_n2 _ P); auto; lia. }
    assert (CA : forall s u, s < N -> cov st s u) by (intros s u L; exists None; split; [auto|apply fle_None]).
    split; [apply P|]. split; [apply P|]. right. ands.
    - intros s v l t _ He. apply CA. apply (RG _ _ _ He).
    - intros s v Hf Hv. destruct (z_min (fw_d st)) as [m|] eqn:M.
      + exists m. split; auto. apply CA. destruct (zb_min _ (p2_z _ P) m M) as [_ Hm]. unfold V in Hm. destruct (nth_error (zs st) m) eqn:En; [|congruence]. rewrite <- (zb_len _ (p2_z _ P)). apply nth_error_Some. congruence.
      + destruct (zc_acc _ (p2_c _ P) s v) as (m & M1 & _); auto; [|congruence]. intros H. apply (NQ eq_refl s H Hf).
    - apply P.
  Qed.
  Definition Inv2 (st : zst) : Prop := ph2 st /\ fw_rounds st <= N.
  Lemma phase2_step : N <> 0 -> forall st, Inv2 st -> fw_is_done zd nat st = false -> exists st', step true st = Some st' /\ start Inv2 fini st' /\
    (fw_rounds st < fw_rounds st' \/ (fw_rounds st' = fw_rounds st /\ length (fw_ws st') < length (fw_ws st))).
  Proof.
    intros NZ st [P LR] ND. unfold fw_is_done in ND. apply orb_false_iff in ND. destruct ND as [D0 NR]. rewrite (zb_lim _ (p2_z _ P)) in NR. apply Nat.eqb_neq in NR.
    assert (GO : forall s0 c ws, ph2' s0 -> fw_rounds s0 <= N -> fw_ws s0 = c :: ws -> exists st', fw_go zd nat (z_step_with mx A) true s0 = Some st' /\ start Inv2 fini st' /\
       fw_rounds st' = fw_rounds s0 /\ length (fw_ws st') < length (fw_ws s0)).
    { intros s0 c ws P0 L0 W0. destruct (z_go_spec true s0 c ws (q2_z _ P0) W0) as (st' & E1 & [(D1 & D2 & D3 & D4)|O]); [intros _; apply P0| |]; (exists st'; split; [exact E1|]).
      - split; [left; split; [unfold fw_is_done; rewrite D1; auto|apply infinite_fini; auto]|]. rewrite D4, W0. cbn. split; auto.
      - assert (P1 := ph2_out c s0 st' P0 O). assert (RR := o_rd _ _ _ _ O). split.
        + assert (DD : fw_done st' = false) by apply (p2_z _ P1). assert (LL : fw_limit st' = N) by apply (p2_z _ P1).
          destruct (Nat.eq_dec (fw_rounds st') N) as [En|En].
          * left. split; [unfold fw_is_done; rewrite LL, En, Nat.eqb_refl; apply orb_true_r|]. apply ph2_final; auto.
          * right. split; [unfold fw_is_done; rewrite LL, DD; apply Nat.eqb_neq in En; rewrite En; auto|]. split; auto. lia.
        + split; auto. rewrite (o_ws _ _ _ _ O). cbn. lia. }
    unfold fw_step. destruct (fw_ws st) as [|c ws] eqn:W.
    - destruct (fw_next st) as [|x nx] eqn:Nx.
      + eexists. split; [reflexivity|]. split; [|left; cbn; lia]. left. split; [reflexivity|].
        apply (fini_d st); auto. apply settled_fini; try apply P. unfold queue. rewrite W, Nx. auto.
      + assert (HR : exists c ws, rev (x :: nx) = c :: ws). { destruct (rev (x :: nx)) as [|c ws] eqn:Er; [|eauto]. assert (Lr := rev_length (x :: nx)). rewrite Er in Lr. discriminate. }
        destruct HR as (c & ws & Er). destruct (GO (refill st) c ws) as (st' & E1 & E2 & E3 & E4); [apply ph2_refill; auto; rewrite Nx; discriminate|cbn; lia|cbn; rewrite Nx; auto|].
        unfold refill in E1. rewrite Nx in E1. exists st'. split; [exact E1|]. split; auto. left. rewrite E3. cbn. lia.
    - destruct (GO st c ws) as (st' & E1 & E2 & E3 & E4); auto using ph2_ph2'. exists st'. split; [exact E1|]. split; auto. right. rewrite <- W. auto.
  Qed.

  (** *** Start *)
  Lemma z_init_spec : exists st, z_init n A = Some st /\ ph1 st /\ fw_rounds st = 0 /\ fw_done st = false /\ fw_limit st = N.
  Proof.
    unfold z_init. change (a_size (fa_aut A)) with N. rewrite (proj2 (Nat.leb_le n N) HnN). eexists. split; [reflexivity|]. set (st := mk_fw _ _ _ _ _ _).
    assert (NT : forall s i, nth_error (zs st) s = Some i -> s < N /\ (s < n -> si_w i = Some (Some 0%Z) /\ si_inq i = true) /\ (n <= s -> si_w i = None /\ si_inq i = false)).
    { intros s i. unfold zs, st. cbn [fw_d z_states]. intros H. assert (L : s < n + (N - n)). { assert (Q : nth_error (repeat (mk_si (Some (Some 0%Z)) (Some None) (Some None) true) n ++ repeat (mk_si None None None false) (N - n)) s <> None) by congruence. apply nth_error_Some in Q. rewrite app_length, !repeat_length in Q. auto. }
      split; [lia|]. split; intros Ls.
      - rewrite nth_error_app1 in H by (rewrite repeat_length; auto). apply nth_error_In, repeat_spec in H. subst i. auto.
      - rewrite nth_error_app2 in H by (rewrite repeat_length; auto). apply nth_error_In, repeat_spec in H. subst i. auto. }
    assert (LZ : length (zs st) = N) by (unfold zs, st; cbn [fw_d z_states]; rewrite app_length, !repeat_length; lia).
    assert (VN : forall s, s < n -> V st s = Some (Some 0%Z)).
    { intros s L. unfold V. destruct (nth_error (zs st) s) as [i|] eqn:E1; [apply (NT s i E1); auto|]. apply nth_error_None in E1. lia. }
    assert (VO : forall s v, V st s = Some v -> s < n /\ v = Some 0%Z).
    { intros s v. unfold V. destruct (nth_error (zs st) s) as [i|] eqn:E1; [|discriminate]. destruct (NT s i E1) as (_ & T1 & T2). destruct (Nat.lt_ge_cases s n) as [L|L]; [destruct (T1 L) as [-> _]|destruct (T2 L) as [-> _]]; intros H; [|discriminate]. injection H as <-. auto. }
    assert (QQ : forall s, In s (queue st) <-> s < n) by (intros s; unfold queue, st; cbn [fw_ws fw_next app]; rewrite in_seq; lia).
    split; [|auto]. constructor.
    - constructor; auto.
      + intros s v H. destruct (VO s v H) as [L ->]. split; [exists 0, (Some 0%Z); constructor; auto|]. left. exists 0. constructor; auto.
      + intros s i Hi. destruct (NT s i Hi) as (_ & T1 & T2). rewrite QQ. destruct (Nat.lt_ge_cases s n) as [L|L]; [destruct (T1 L) as [_ ->]|destruct (T2 L) as [_ ->]]; intuition; lia.
      + unfold queue, st. cbn [fw_ws fw_next app]. apply seq_NoDup.
      + intros s Hs. apply QQ in Hs. rewrite VN by auto. split; [lia|discriminate].
      + discriminate.
    - constructor.
      + intros s v l t Hs Hv. exfalso. apply Hs. apply QQ. apply (VO s v Hv).
      + intros s v Hs _ Hv. exfalso. apply Hs. apply QQ. apply (VO s v Hv).
      + intros s Hs. exists (Some 0%Z). split; auto. apply fle_refl.
    - intros k u s L. cbn in L. lia.
    - intros k u s l t L. cbn in L. lia.
  Qed.

  Notation loop b fuel st := (fw_loop zd nat (fun l => l) (z_step_with mx A) b fuel st).
  Definition zrestart (st : zst) : zst := mk_fw (fw_done st) (fw_limit st) 0 (fw_ws st) (fw_next st) (fw_d st).
  Lemma z_phase2 : forall st, Fin1 st ->
    (forall fuel, loop true fuel (zrestart st) = Some None \/ exists st', loop true fuel (zrestart st) = Some (Some st') /\ fini st') /\
    exists bound st', fini st' /\ forall fuel, bound <= fuel -> loop true fuel (zrestart st) = Some (Some st').
  Proof.
    intros st [[D F]|(D & R & Z & C & SH)].
    - assert (F' : fini (zrestart st)) by (apply (fini_d st); auto).
      assert (L : forall fuel, loop true fuel (zrestart st) = Some (Some (zrestart st))) by (intros fuel; destruct fuel; cbn; unfold fw_is_done, zrestart; cbn [fw_done]; rewrite D; reflexivity).
      split; [intros fuel; right; eauto|]. exists 0, (zrestart st). auto.
    - assert (ZR : z0 (zrestart st)) by (destruct Z; constructor; auto). assert (CR : zc (zrestart st)) by (destruct C; constructor; auto).
      destruct (Nat.eq_dec N 0) as [N0|NZ].
      + assert (F' : fini (zrestart st)).
        { apply settled_fini; auto. destruct (queue (zrestart st)) as [|x l] eqn:Q; auto. destruct (zb_in _ ZR x) as [L _]; [rewrite Q; left; auto|]. lia. }
        assert (L : forall fuel, loop true fuel (zrestart st) = Some (Some (zrestart st))).
        { intros fuel. assert (DN : fw_is_done zd nat (zrestart st) = true) by (unfold fw_is_done; rewrite (zb_lim _ ZR), N0; apply orb_true_r). destruct fuel; cbn; rewrite DN; reflexivity. }
        split; [intros fuel; right; eauto|]. exists 0, (zrestart st). auto.
      + assert (I0 : start Inv2 fini (zrestart st)).
        { right. split; [unfold fw_is_done; rewrite (zb_lim _ ZR), (zb_done _ ZR); cbn [zrestart fw_rounds]; destruct N; [congruence|reflexivity]|]. split; [|cbn; lia].
          constructor; auto; cbn [zrestart fw_rounds]; intros; lia. }
        split.
        * intros fuel. apply (fw_loop_total _ _ _ _ true Inv2 fini); auto. intros s I D1. destruct (phase2_step NZ s I D1) as (s' & H1 & H2 & _). eauto.
        * apply (fw_loop_ends _ _ _ _ true Inv2 fini N); auto; [intros s I; apply I|]. apply phase2_step; auto.
  Qed.

  Theorem paths_run : answers (fun fuel => fixed_point_paths n mx A fuel) (fun d => exists st, fini st /\ d = fw_d st).
  Proof.
    destruct z_init_spec as (st0 & E0 & P0 & R0 & D0 & L0). unfold fixed_point_paths. rewrite E0. cbn [obind].
    assert (I0 : start Inv1 Fin1 st0).
    { unfold FixPre2.start, fw_is_done. rewrite D0, R0, L0. cbn [orb]. destruct (Nat.eq_dec N 0) as [N0|NZ].
      - left. split; [rewrite N0; auto|]. right. ands; try apply P0; [lia|]. apply ph1_short; auto. lia.
      - right. split; [apply Nat.eqb_neq; lia|]. split; auto. lia. }
    split.
    - intros fuel. unfold fw_run.
      destruct (fw_loop_total _ _ (fun l => l) (z_step_with mx A) false Inv1 Fin1) with (fuel := fuel) (st := st0) as [->|(s1 & -> & F1)]; auto.
      { intros s I D1. destruct (phase1_step s I D1) as (s' & H1 & H2 & _). eauto. }
      unfold fw_finalize. fold (zrestart s1). destruct (proj1 (z_phase2 s1 F1) fuel) as [->|(s2 & -> & F2)]; auto. right. exists (fw_d s2). split; [reflexivity|]. eauto.
    - destruct (fw_loop_ends _ _ (fun l => l) (z_step_with mx A) false Inv1 Fin1 N) with (st := st0) as (b1 & s1 & F1 & H1); auto; [intros s I; apply I|apply phase1_step|].
      destruct (proj2 (z_phase2 s1 F1)) as (b2 & s2 & F2 & H2). exists (b1 + b2). intros fuel L. unfold fw_run. rewrite H1 by lia. unfold fw_finalize. fold (zrestart s1). rewrite H2 by lia. discriminate.
  Qed.

  Lemma fini_weight : forall st, fini st -> exists o, z_weight (fw_d st) = Some o /\ match o with
    | None => forall k u s, gp k u s -> ~ fin s
    | Some (Some x) => (exists k s, gp k (Some x) s /\ fin s) /\ forall k u s, gp k u s -> fin s -> fle (Some x) u
    | Some None => (exists k s, gp k None s /\ fin s) \/ exists s, fin s /\ unbS s
    end.
  Proof.
    intros st (F1 & F2 & F3). unfold z_weight. destruct (z_min (fw_d st)) as [m|] eqn:M.
    - destruct (F2 m eq_refl) as [Hf Hv]. fold (zs st). unfold V in Hv. destruct (nth_error (zs st) m) as [i|] eqn:Ei; [|congruence]. cbn [obind]. destruct (si_w i) as [v|] eqn:Ev; [|congruence]. cbn [obind].
      assert (Vm : V st m = Some v) by (unfold V; rewrite Ei; auto). exists (Some v). split; auto. destruct (F1 m v Vm) as [_ Hr]. destruct v as [x|].
      + split; [destruct Hr as [(k & G)|[D _]]; [eauto|discriminate]|]. intros k u s G Hs. destruct F3 as [(_ & m' & M1 & _ & M3)|(C1 & C2 & C3)]; [congruence|].
        assert (CV : cov st s u).
        { clear Hs. induction G as [s Hs|k u s l t G IH He]; auto. destruct IH as (y & Y1 & Y2). eapply cov_le; [apply (C1 s y l t); auto|]. apply fle_add; auto using fle_refl. }
        destruct CV as (y & Y1 & Y2). destruct (C2 s y Hs Y1) as (m' & M1 & z & Z1 & Z2). assert (m' = m) by congruence. subst m'. assert (z = Some x) by congruence. subst z. eapply fle_trans; eauto.
      + destruct Hr as [(k & G)|[_ U]]; [left; eauto|right; eauto].
    - exists None. split; auto. intros k u s G Hs. destruct F3 as [(_ & m' & M1 & _)|(C1 & C2 & C3)]; [congruence|].
      assert (CV : cov st s u).
      { clear Hs. induction G as [s Hs|k u s l t G IH He]; auto. destruct IH as (y & Y1 & Y2). eapply cov_le; [apply (C1 s y l t); auto|]. apply fle_add; auto using fle_refl. }
      destruct CV as (y & Y1 & Y2). destruct (C2 s y Hs Y1) as (m' & M1 & _). congruence.
  Qed.
End FixPath2.
