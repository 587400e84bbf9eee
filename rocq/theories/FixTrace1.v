(** The traces of the fixed-point saturation of pre*: for edges with a finite weight they lead back to the original edges. *)
From Coq Require Import List Arith Lia Bool ZArith Permutation.
From Verif Require Import Base BaseFacts Spec SpecFacts PdaModel PdaProof AutModel AutProof PreStarModel PreStarProof PreStarLang
  PostStarModel SolverModel QueryModel ProductModel ProductProof UtilModel UtilProof ShortSpec ShortModel PostShortProof PreShortModel PreShortProof TraceModel TraceProof FixSpec FixModel FixChain
  FixPre1 FixPre2 FixPre3 FixPre4 FixPre5 FixPre6 FixSolveProof FixTraceModel.
Import ListNotations.

(** ** Invariants of the workset *)
Section Keep.
  Variables D E : Type.
  Variable norm : list E -> list E.
  Variable step_with : bool -> fwst D E -> E -> option (fwst D E * bool).
  Variable I : D -> Prop.
  Hypothesis HS : forall b st t st' k, I (fw_d st) -> step_with b st t = Some (st', k) -> I (fw_d st').
  Lemma fw_go_keep : forall b st st', I (fw_d st) -> fw_go D E step_with b st = Some st' -> I (fw_d st').
  Proof.
    intros b st st' HI H. unfold fw_go in H. destruct (fw_ws st) as [|c ws]; [discriminate|]. destruct (step_with b _ c) as [[s k]|] eqn:ES; [|discriminate]. cbn [obind fst snd] in H. injection H as <-.
    apply HS in ES; auto. destruct k; auto.
  Qed.
  Lemma fw_step_keep : forall b st st', I (fw_d st) -> fw_step D E norm step_with b st = Some st' -> I (fw_d st').
  Proof.
    intros b st st' HI H. unfold fw_step in H. destruct (fw_ws st); [|eapply fw_go_keep; eauto]. destruct (fw_next st) eqn:EN; [injection H as <-; auto|]. eapply fw_go_keep; [|exact H]. auto.
  Qed.
  Lemma fw_loop_keep : forall b fuel st st', I (fw_d st) -> fw_loop D E norm step_with b fuel st = Some (Some st') -> I (fw_d st').
  Proof.
    intros b fuel. induction fuel as [|f IH]; intros st st' HI H; cbn in H; destruct (fw_is_done D E st); try (injection H as <-; auto; fail); [discriminate|].
    destruct (fw_step D E norm step_with b st) as [s|] eqn:ES; [|discriminate]. eapply IH; [|exact H]. eapply fw_step_keep; eauto.
  Qed.
  Lemma fw_run_keep : forall fuel st st', I (fw_d st) -> fw_run D E norm step_with fuel st = Some (Some st') -> I (fw_d st').
  Proof.
    intros fuel st st' HI H. unfold fw_run in H. destruct (fw_loop D E norm step_with false fuel st) as [[s|]|] eqn:E1; try discriminate. apply fw_loop_keep in E1; auto. unfold fw_finalize in H. apply fw_loop_keep in H; auto.
  Qed.
End Keep.

(** ** Weights of derivations *)
Definition flt (mx : bool) (a b : fwt) : Prop := f_less mx a b = true.
Lemma flt_spec : forall mx a b, flt mx a b <-> match a, b with _, None => False | None, Some _ => True | Some x, Some y => (sg mx x < sg mx y)%Z end.
Proof. intros mx [x|] [y|]; unfold flt, f_less, sg; try destruct mx; rewrite ?Z.ltb_lt; split; intros; try lia; auto; try discriminate; try tauto. Qed.
Lemma flt_fle : forall mx a b, flt mx a b -> fle mx a b.
Proof. intros mx a b H. apply f_less_fle. exact H. Qed.
Lemma flt_fle_trans : forall mx a b c, flt mx a b -> fle mx b c -> flt mx a c.
Proof. intros mx a b c H1 H2. apply flt_spec in H1. apply fle_spec in H2. apply flt_spec. destruct a, b, c; auto; try tauto. lia. Qed.
Lemma fle_None_eq : forall mx a, fle mx a None -> a = None.
Proof. intros mx [x|] H; auto. apply fle_spec in H. destruct H. Qed.

Fixpoint fsum (V : edge -> fwt) (rw : Z) (cs : list edge) : fwt := match cs with [] => Some rw | c :: cs' => f_add (V c) (fsum V rw cs') end.
Lemma fsum_mono : forall mx (V V' : edge -> fwt) rw cs, (forall c, In c cs -> fle mx (V' c) (V c)) -> fle mx (fsum V' rw cs) (fsum V rw cs).
Proof. intros mx V V' rw cs. induction cs as [|c cs IH]; cbn; intros H; [apply fle_refl|]. apply fle_add; auto. Qed.
Lemma fsum_ext : forall (V V' : edge -> fwt) rw cs, (forall c, In c cs -> V' c = V c) -> fsum V' rw cs = fsum V rw cs.
Proof. intros V V' rw cs. induction cs as [|c cs IH]; cbn; intros H; auto. rewrite IH by auto. rewrite (H c) by auto. auto. Qed.
Lemma fsum_lt : forall mx (V V' : edge -> fwt) rw cs, (forall c, In c cs -> fle mx (V' c) (V c)) -> (exists c, In c cs /\ flt mx (V' c) (V c)) -> fsum V rw cs = None \/ flt mx (fsum V' rw cs) (fsum V rw cs).
Proof.
  intros mx V V' rw cs. induction cs as [|c cs IH]; cbn; intros H (x & Hx & Hl); [destruct Hx|].
  assert (M : fle mx (fsum V' rw cs) (fsum V rw cs)) by (apply fsum_mono; auto). assert (Mc : fle mx (V' c) (V c)) by auto. apply fle_spec in M, Mc.
  destruct (V c) as [v|] eqn:Vc; [|left; auto]. destruct (fsum V rw cs) as [s|] eqn:Sm; [|left; auto]. right. cbn.
  assert (K : flt mx (V' c) (Some v) \/ flt mx (fsum V' rw cs) (Some s)).
  { destruct Hx as [<-|Hx]; [left; rewrite <- Vc; auto|right]. destruct IH as [IH|IH]; eauto. discriminate. }
  apply flt_spec. destruct (V' c) as [v'|]; cbn; auto. destruct (fsum V' rw cs) as [s'|]; cbn; auto. rewrite !sg_add. destruct K as [K|K]; apply flt_spec in K; lia.
Qed.
(** A sum at least as good as a finite weight gets strictly better than it with one of its edges. *)
Lemma fsum_strict : forall mx (V V' : edge -> fwt) rw cs v, (forall c, In c cs -> fle mx (V' c) (V c)) -> (exists c, In c cs /\ flt mx (V' c) (V c)) -> fle mx (fsum V rw cs) (Some v) ->
  flt mx (fsum V' rw cs) (Some v).
Proof.
  intros mx V V' rw cs v H1 H2 H3. destruct (fsum_lt mx V V' rw cs H1 H2) as [E|E]; [|eapply flt_fle_trans; eauto].
  assert (M := fsum_mono mx V V' rw cs H1). rewrite E in M. apply fle_None_eq in M. rewrite M. apply flt_spec. auto.
Qed.
Lemma fsum_finite : forall (V : edge -> fwt) rw cs v, fsum V rw cs = Some v -> forall c, In c cs -> exists x, V c = Some x.
Proof. intros V rw cs. induction cs as [|a cs IH]; cbn; intros v H c Hc; [destruct Hc|]. destruct (V a) as [x|] eqn:Va; [|discriminate]. destruct (fsum V rw cs) as [y|] eqn:S; [|discriminate]. destruct Hc as [<-|Hc]; eauto. Qed.

Section Trace.
  Variable P : pda.
  Hypothesis WP : wf_pda P.
  Variable mx : bool.
  Variable E0 : list edge.
  Notation fle := (fle mx).
  Notation flt := (flt mx).

  (** The rule and the edges that a trace [tr] of the edge [e] stands for. *)
  Definition tder (e : edge) (tr : trace) (rw : Z) (cs : list edge) : Prop := exists id tmp r ls l,
    tr = TPre id tmp /\ e_lab e = Some l /\ get_rule P (e_src e) id = Some (r, ls) /\ matches (pd_nlab P) ls l /\ rw = r_w r /\
    match r_op r with
    | POP => e_dst e = r_to r /\ cs = []
    | SWAP => cs = [mk_edge (r_to r) (Some (r_opl r)) (e_dst e)]
    | NOOP => cs = [mk_edge (r_to r) (Some l) (e_dst e)]
    | PUSH => exists z, tmp = Some z /\ cs = [mk_edge (r_to r) (Some (r_opl r)) z; mk_edge z (Some l) (e_dst e)]
    end.

  Definition ES (A : faut) : list edge := map fst (a_edges (fa_aut A)).
  Definition rank (A : faut) (e : edge) : nat := age (fa_snd A) e.
  (** The trace of [e] stands for a derivation that is at least as good; unless it has become better in the meantime it is older than e. *)
  Definition tjust (A : faut) (e : edge) : Prop :=
    (fa_trace2 A e = TNull /\ In e E0 /\ fa_weight A e = Some 0%Z) \/
    exists rw cs, tder e (fa_trace2 A e) rw cs /\ incl cs (ES A) /\
      forall v, fa_weight A e = Some v -> fle (fsum (fa_weight A) rw cs) (Some v) /\ ((forall c, In c cs -> rank A c < rank A e) \/ flt (fsum (fa_weight A) rw cs) (Some v)).
  Record tinv (A : faut) : Prop := {
    ti_lab : forall e, In e (ES A) -> exists l, e_lab e = Some l /\ l < pd_nlab P;
    ti_just : forall e, In e (ES A) -> tjust A e }.

  (** Edges are only added and weights only get better. *)
  Record amono (A A' : faut) : Prop := { am_ES : incl (ES A) (ES A'); am_V : forall e, In e (ES A) -> fle (fa_weight A' e) (fa_weight A e) }.
  Lemma amono_refl : forall A, amono A A.
  Proof. intros A. constructor; [apply incl_refl|intros; apply fle_refl]. Qed.
  Lemma amono_trans : forall A B C, amono A B -> amono B C -> amono A C.
  Proof. intros A B C [H1 H2] [H3 H4]. constructor; [eapply incl_tran; eauto|]. intros e He. eapply fle_trans; eauto. Qed.

  Lemma fa_get_Some : forall A e v, fa_get A e = Some v -> In e (ES A) /\ v = fa_weight A e.
  Proof. intros A e v H. unfold fa_get in H. destruct (find_edge e (a_edges (fa_aut A))) as [t|] eqn:F; [|discriminate]. injection H as <-. split; auto. apply find_edge_Some in F. apply (in_map fst) in F. exact F. Qed.

  (** One changed edge. *)
  Lemma tinv_set : forall A A' e w tr rw cs, tinv A -> (exists l, e_lab e = Some l /\ l < pd_nlab P) -> tder e tr rw cs -> incl cs (ES A) ->
    (forall v, w = Some v -> fle (fsum (fa_weight A) rw cs) (Some v)) -> (In e (ES A) -> flt w (fa_weight A e)) ->
    (forall x, In x (ES A') <-> x = e \/ In x (ES A)) -> fa_w A' = (e, w) :: fa_w A -> fa_snd A' = (e, tr) :: fa_snd A -> tinv A' /\ amono A A'.
  Proof.
    intros A A' e w tr rw cs T HL HT HC HS HI HE HW HN.
    assert (VE : forall x, fa_weight A' x = if edge_eq_dec e x then w else fa_weight A x) by (intros x; unfold fa_weight; rewrite HW, w_find_cons; destruct (edge_eq_dec e x); auto).
    assert (TE : forall x, fa_trace2 A' x = if edge_eq_dec e x then tr else fa_trace2 A x) by (intros x; unfold fa_trace2; rewrite HN, w_find_cons; destruct (edge_eq_dec e x); auto).
    assert (RE : forall x, rank A' x = if edge_eq_dec e x then S (length (fa_snd A)) else rank A x).
    { intros x. unfold rank. rewrite HN. cbn [age fst]. destruct (edge_eqb e x) eqn:Q; [apply edge_eqb_eq in Q; destruct (edge_eq_dec e x); [auto|congruence]|].
      destruct (edge_eq_dec e x) as [->|]; auto. rewrite edge_eqb_refl in Q. discriminate. }
    assert (RL : forall x, rank A x <= length (fa_snd A)) by (intros x; apply age_le).
    assert (MV : forall x, In x (ES A) -> fle (fa_weight A' x) (fa_weight A x)).
    { intros x Hx. rewrite VE. destruct (edge_eq_dec e x) as [<-|]; [apply flt_fle; auto|apply fle_refl]. }
    assert (II : incl (ES A) (ES A')) by (intros x Hx; apply HE; auto).
    split; [|constructor; auto]. constructor.
    - intros x Hx. apply HE in Hx. destruct Hx as [->|Hx]; auto. apply (ti_lab _ T); auto.
    - intros x Hx. unfold tjust. rewrite TE, VE. destruct (edge_eq_dec e x) as [<-|Ne].
      + right. exists rw, cs. split; auto. split; [eapply incl_tran; eauto|]. intros v ->. destruct (in_dec edge_eq_dec e cs) as [Hin|Hn].
        * assert (ST : flt (fsum (fa_weight A') rw cs) (Some v)).
          { apply (fsum_strict mx (fa_weight A)); auto. exists e. split; auto. rewrite VE. destruct (edge_eq_dec e e); [|congruence]. auto. }
          split; auto. apply flt_fle; auto.
        * rewrite (fsum_ext (fa_weight A) (fa_weight A')); [|intros c Hc; rewrite VE; destruct (edge_eq_dec e c) as [<-|]; [contradiction|auto]].
          split; auto. left. intros c Hc. rewrite !RE. destruct (edge_eq_dec e e); [|congruence]. destruct (edge_eq_dec e c) as [<-|]; [contradiction|]. specialize (RL c). lia.
      + apply HE in Hx. destruct Hx as [->|Hx]; [congruence|]. destruct (ti_just _ T x Hx) as [H|(rw' & cs' & H1 & H2 & H3)]; [left; auto|]. right.
        exists rw', cs'. split; auto. split; [eapply incl_tran; eauto|]. intros v Hv. destruct (H3 v Hv) as [H4 H5].
        destruct (in_dec edge_eq_dec e cs') as [Hin|Hn].
        * assert (ST : flt (fsum (fa_weight A') rw' cs') (Some v)).
          { apply (fsum_strict mx (fa_weight A)); auto. exists e. split; auto. rewrite VE. destruct (edge_eq_dec e e); [|congruence]. auto. }
          split; auto. apply flt_fle; auto.
        * assert (EQ : fsum (fa_weight A') rw' cs' = fsum (fa_weight A) rw' cs') by (apply fsum_ext; intros c Hc; rewrite VE; destruct (edge_eq_dec e c) as [<-|]; [contradiction|auto]).
          rewrite EQ. split; auto. destruct H5 as [H5|H5]; auto. left. intros c Hc. rewrite !RE. destruct (edge_eq_dec e c) as [<-|]; [contradiction|]. destruct (edge_eq_dec e x); [congruence|]. auto.
  Qed.

  Notation xst := (fwst xd edge).
  Notation au st := (x_aut (fw_d st)).
  Definition dok (d : list (nat * (nat * nat))) : Prop := forall z p id, In (z, (p, id)) d -> exists r ls, get_rule P p id = Some (r, ls) /\ r_op r = PUSH.
  Definition dinv (d : xd) : Prop := dok (x_delta d) /\ tinv (x_aut d).
  (** The invariant was kept since [A]. *)
  Definition keeps (A : faut) (st : xst) : Prop := dinv (fw_d st) /\ amono A (au st).
  Lemma keeps_refl : forall st, dinv (fw_d st) -> keeps (au st) st.
  Proof. intros st H. split; auto. apply amono_refl. Qed.
  Lemma keeps_trans : forall A a b, keeps A a -> keeps (au a) b -> keeps A b.
  Proof. intros A a b [_ H1] [H2 H3]. split; auto. eapply amono_trans; eauto. Qed.

  Lemma flt_None : forall w v, flt w v -> flt None v.
  Proof. intros w v H. apply flt_spec in H. apply flt_spec. destruct w, v; auto. Qed.
  Lemma x_update_keeps : forall b st e w tr st' rw cs, dinv (fw_d st) -> tder e tr rw cs -> incl cs (ES (au st)) ->
    fle (fsum (fa_weight (au st)) rw cs) w -> x_update mx b st e w tr = Some st' -> keeps (au st) st'.
  Proof.
    intros b st e w tr st' rw cs T0 HT HC HS0 H. destruct T0 as [D0 T]. assert (HS : forall v, w = Some v -> fle (fsum (fa_weight (au st)) rw cs) (Some v)) by (intros v <-; auto).
    assert (KK : forall d', x_delta d' = x_delta (fw_d st) -> tinv (x_aut d') /\ amono (au st) (x_aut d') -> dinv d' /\ amono (au st) (x_aut d')) by (intros d' E [K1 K2]; split; auto; split; auto; rewrite E; auto).
    assert (HL : exists l, e_lab e = Some l /\ l < pd_nlab P).
    { destruct HT as (id & tmp & r & ls & l & _ & L & G & M & _). exists l. split; auto. destruct (get_rule_facts P WP _ _ _ _ G) as (_ & _ & W). eapply matches_lt; eauto. }
    assert (HIN : In e (ES (au st)) -> forall x, In x (ES (au st)) <-> x = e \/ In x (ES (au st))) by (intros Hi x; split; auto; intros [->|]; auto).
    unfold x_update in H. destruct b.
    - destruct (fa_get (au st) e) as [old|] eqn:G; [|discriminate]. cbn [obind] in H. apply fa_get_Some in G. destruct G as [Gi ->].
      destruct (f_less mx w (fa_weight (au st) e)) eqn:L; injection H as <-; [|apply keeps_refl; split; auto].
      apply KK; [reflexivity|]. eapply (tinv_set (au st) _ e None tr rw cs); cbn; auto; [discriminate|]. intros _. eapply flt_None; eauto.
    - destruct (emplace_edge (fa_aut (au st)) e tr) as [[A1 fr]|] eqn:EM; [|discriminate]. cbn [obind fst snd] in H. unfold emplace_edge in EM.
      destruct (Nat.ltb (e_src e) (a_size (fa_aut (au st)))); [|discriminate]. destruct (find_edge e (a_edges (fa_aut (au st)))) as [t0|] eqn:F; injection EM as <- <-.
      + destruct (f_less mx w (fa_weight (au st) e)) eqn:L; injection H as <-; [|apply keeps_refl; split; auto]. apply find_edge_Some in F. apply (in_map fst) in F. cbn [fst] in F.
        apply KK; [reflexivity|]. eapply (tinv_set (au st) _ e w tr rw cs); cbn; auto.
      + injection H as <-. apply find_edge_None in F. apply KK; [reflexivity|]. eapply (tinv_set (au st) _ e w tr rw cs); cbn; auto; [intros Hi; contradiction|]. intros x. split; intros [->|K]; auto.
  Qed.

  Lemma bl_In : forall ls l, In l (bulk_labels P ls) -> matches (pd_nlab P) ls l.
  Proof. intros ls l. unfold bulk_labels, matches. destruct (wild ls); auto. rewrite in_seq. lia. Qed.
  Lemma x_bulk_keeps : forall b st p ls q w tr st' A, keeps A st ->
    (forall st l, keeps A st -> matches (pd_nlab P) ls l -> exists rw cs, tder (mk_edge p (Some l) q) tr rw cs /\ incl cs (ES (au st)) /\ fle (fsum (fa_weight (au st)) rw cs) w) ->
    x_bulk P mx b st p ls q w tr = Some st' -> keeps A st'.
  Proof.
    intros b st p ls q w tr st' A K H E. unfold x_bulk in E. eapply (ofold_keep _ _ (keeps A)); [|exact K|exact E]. intros s l s' Hl Hs Es. apply bl_In in Hl.
    destruct (H s l Hs Hl) as (rw & cs & H1 & H2 & H3). cbn beta in Es. eapply keeps_trans; [exact Hs|]. apply (x_update_keeps b s (mk_edge p (Some l) q) w tr s' rw cs); auto. apply Hs.
  Qed.
  Lemma x_add_pop_keeps : forall st q st' A, keeps A st -> x_add_pop P mx st q = Some st' -> keeps A st'.
  Proof.
    intros st q st' A K E. cbn beta in E. unfold x_add_pop in E. destruct (Nat.leb (pd_n P) q); [injection E as <-; auto|].
    destruct (nth_error (x_added (fw_d st)) q) as [aq|]; [|discriminate]. cbn [obind] in E. destruct aq; [injection E as <-; auto|].
    destruct (nth_error (pd_states P) q) as [s|]; [|discriminate]. cbn [obind] in E. eapply (ofold_keep _ _ (keeps A)); [| |exact E]; [|exact K]. clear st K E. intros st p s' _ K E. cbn beta in E.
    destruct (nth_error (pd_states P) p) as [sp|] eqn:Hp; [|discriminate]. cbn [obind] in E. eapply (ofold_keep _ _ (keeps A)); [|exact K|exact E]. clear st K E. intros st [id [r ls]] st1 Hv K E. cbn beta in E. cbn [fst snd] in E.
    assert (Hv' : In (id, (r, ls)) (visited (rules_at P p) q)) by (rewrite <- (nth_error_rules_at _ _ _ Hp); auto).
    destruct (visited_facts P WP _ _ _ _ _ Hv') as (V1 & V2 & V3 & V4 & V5).
    destruct (r_op r) eqn:Er; try (injection E as <-; auto; fail). eapply x_bulk_keeps; [exact K| |exact E]. intros s2 l K2 M. exists (r_w r), []. ands.
    - exists id, None, r, ls, l. cbn [e_lab e_src e_dst]. rewrite Er. ands; auto.
    - intros x [].
    - cbn. apply fle_refl.
  Qed.

  (** The edge that is worked on, with a weight read before. *)
  Lemma keeps_in : forall A st t, keeps A st -> In t (ES A) -> In t (ES (au st)) /\ fle (fa_weight (au st) t) (fa_weight A t).
  Proof. intros A st t [_ [H1 H2]] Hi. auto. Qed.
  Lemma lab_of : forall A t, tinv A -> In t (ES A) -> exists l, e_lab t = Some l /\ l < pd_nlab P.
  Proof. intros A t H Hi. apply (ti_lab _ H); auto. Qed.

  Lemma f_add_3 : forall a b c, f_add (f_add a b) c = f_add b (f_add c a).
  Proof. intros [a|] [b|] [c|]; cbn; auto. f_equal. lia. Qed.
  Lemma f_add_c : forall a b, f_add a b = f_add b a.
  Proof. intros [a|] [b|]; cbn; auto. f_equal. lia. Qed.
  Lemma x_delta_loop_keeps : forall b st t st' A, keeps A st -> In t (ES A) -> x_delta_loop P mx b st t (fa_weight A t) = Some st' -> keeps A st'.
  Proof.
    intros b st t st' A K Ht E. unfold x_delta_loop in E. unfold x_delta_of in E. destruct (Nat.ltb (e_src t) (x_size st)); [|discriminate]. cbn [obind] in E.
    assert (DO : forall d, In d (map snd (filter (fun d => Nat.eqb (fst d) (e_src t)) (x_delta (fw_d st)))) -> exists r ls, get_rule P (fst d) (snd d) = Some (r, ls) /\ r_op r = PUSH).
    { intros d Hd. apply in_map_iff in Hd. destruct Hd as ((z & p & id) & <- & Hd). apply filter_In in Hd. destruct Hd as [Hd _]. destruct K as [[K _] _]. apply (K z p id); auto. }
    match type of E with ofold _ ?L _ = _ => generalize dependent L end. intros L E DO.
    eapply (ofold_keep _ _ (keeps A)); [|exact K|exact E]. clear st K E. intros st [p id] st1 Hd K E. cbn beta in E. destruct (DO _ Hd) as (r & ls & G & Er). cbn [fst snd] in *. rewrite G in E. cbn [obind fst snd] in E. clear DO Hd.
    destruct (contains_lab ls (e_lab t)) eqn:CL; [|injection E as <-; auto]. destruct (fa_get (au st) (mk_edge (r_to r) (Some (r_opl r)) (e_src t))) as [w1|] eqn:G1; [|discriminate]. cbn [obind] in E.
    apply fa_get_Some in G1. destruct G1 as [I1 ->]. destruct (keeps_in _ _ _ K Ht) as [I2 V2]. destruct (lab_of _ _ (proj2 (proj1 K)) I2) as (l & L1 & L2).
    destruct (get_rule_facts P WP _ _ _ _ G) as (_ & _ & W). rewrite L1 in CL, E. cbn [contains_lab] in CL. apply (contains_spec _ _ _ W L2) in CL.
    assert (ET : mk_edge (e_src t) (Some l) (e_dst t) = t) by (destruct t; cbn in *; congruence).
    eapply keeps_trans; [exact K|]. eapply x_update_keeps; [apply K| | | |exact E].
    - exists id, (Some (e_src t)), r, ls, l. cbn [e_lab e_src e_dst]. rewrite Er. ands; eauto.
    - rewrite ET. intros x [<-|[<-|[]]]; auto.
    - rewrite ET. cbn [fsum]. rewrite f_add_3. apply fle_add; [apply fle_refl|]. apply fle_add; [auto|apply fle_refl].
  Qed.

  Lemma x_rule_keeps : forall b t p id r ls st st' A, keeps A st -> In t (ES A) -> In (id, (r, ls)) (visited (rules_at P p) (e_src t)) -> x_rule P mx b t (fa_weight A t) p st (id, (r, ls)) = Some st' -> keeps A st'.
  Proof.
    intros b t p id r ls st st' A K Ht Hv E. destruct (visited_facts P WP _ _ _ _ _ Hv) as (V1 & V2 & V3 & V4 & V5). unfold x_rule in E. cbn [fst snd] in E.
    destruct (keeps_in _ _ _ K Ht) as [I2 W2]. destruct (lab_of _ _ (proj2 (proj1 K)) I2) as (l & L1 & L2).
    destruct (r_op r) eqn:Er.
    - destruct (lab_eqb (Some (r_opl r)) (e_lab t)) eqn:LE; [|injection E as <-; auto]. apply lab_eqb_eq in LE.
      assert (ET : mk_edge (r_to r) (Some (r_opl r)) (e_dst t) = t) by (destruct t; cbn in *; congruence).
      assert (K1 : keeps A (x_add_delta st (e_dst t, (p, id)))).
      { destruct K as [[K1 K2] K3]. split; [|exact K3]. split; [|exact K2]. intros z p' id' Hin. cbn [x_add_delta x_set fw_d x_delta] in Hin. apply d_insert_In in Hin. destruct Hin as [Hin|Hin]; [|eapply K1; eauto]. injection Hin as -> -> ->. eauto. }
      cbv zeta in E. unfold x_rel_of in E. destruct (Nat.ltb (e_dst t) (x_size (x_add_delta st (e_dst t, (p, id))))); [|discriminate]. cbn [obind] in E.
      match type of E with ofold _ ?L _ = _ => assert (DE : forall e, In e L -> e_src e = e_dst t) by (intros e He; apply in_rev in He; apply filter_In in He; destruct He as [_ He]; apply Nat.eqb_eq in He; auto); generalize dependent L end. intros L E DE.
      eapply (ofold_keep _ _ (keeps A)); [|exact K1|exact E]. clear st K K1 E I2 W2. intros st e st1 He K E. cbn beta in E. apply DE in He.
      destruct (contains_lab ls (e_lab e)) eqn:CL; [|injection E as <-; auto]. destruct (fa_get (au st) e) as [w2|] eqn:G1; [|discriminate]. cbn [obind] in E. apply fa_get_Some in G1. destruct G1 as [I1 ->].
      destruct (keeps_in _ _ _ K Ht) as [I2 W2]. destruct (lab_of _ _ (proj2 (proj1 K)) I1) as (l' & L1' & L2'). rewrite L1' in CL, E. cbn [contains_lab] in CL. apply (contains_spec _ _ _ V5 L2') in CL.
      assert (ET' : mk_edge (e_dst t) (Some l') (e_dst e) = e) by (destruct e; cbn in *; congruence).
      eapply keeps_trans; [exact K|]. eapply x_update_keeps; [apply K| | | |exact E].
      + exists id, (Some (e_dst t)), r, ls, l'. cbn [e_lab e_src e_dst]. rewrite Er. ands; eauto.
      + rewrite ET, ET'. intros x [<-|[<-|[]]]; auto.
      + rewrite ET, ET'. cbn [fsum]. rewrite f_add_3. apply fle_add; auto. apply fle_refl.
    - destruct (nth_error (x_added (fw_d st)) (e_src t)) as [[|]|]; [injection E as <-; auto| |discriminate]. cbn [obind] in E.
      eapply x_bulk_keeps; [exact K| |exact E]. intros s2 l' K2 M. exists (r_w r), []. ands.
      + exists id, None, r, ls, l'. cbn [e_lab e_src e_dst]. rewrite Er. ands; auto.
      + intros x [].
      + cbn. apply fle_refl.
    - destruct (lab_eqb (Some (r_opl r)) (e_lab t)) eqn:LE; [|injection E as <-; auto]. apply lab_eqb_eq in LE.
      assert (ET : mk_edge (r_to r) (Some (r_opl r)) (e_dst t) = t) by (destruct t; cbn in *; congruence).
      eapply x_bulk_keeps; [exact K| |exact E]. intros s2 l' K2 M. exists (r_w r), [t]. destruct (keeps_in _ _ _ K2 Ht) as [I3 W3]. ands.
      + exists id, None, r, ls, l'. cbn [e_lab e_src e_dst]. rewrite Er, ET. ands; auto.
      + intros x [<-|[]]; auto.
      + cbn [fsum]. rewrite (f_add_c (Some (r_w r))). apply fle_add; auto. apply fle_refl.
    - destruct (contains_lab ls (e_lab t)) eqn:CL; [|injection E as <-; auto]. rewrite L1 in CL, E. cbn [contains_lab] in CL. apply (contains_spec _ _ _ V5 L2) in CL.
      assert (ET : mk_edge (r_to r) (Some l) (e_dst t) = t) by (destruct t; cbn in *; congruence).
      eapply keeps_trans; [exact K|]. eapply x_update_keeps; [apply K| | | |exact E].
      + exists id, None, r, ls, l. cbn [e_lab e_src e_dst]. rewrite Er. ands; eauto.
      + rewrite ET. intros x [<-|[]]; auto.
      + rewrite ET. cbn [fsum]. rewrite (f_add_c (Some (r_w r))). apply fle_add; auto. apply fle_refl.
  Qed.

  Lemma x_step_with_keeps : forall b st t st' k, dinv (fw_d st) -> x_step_with P mx b st t = Some (st', k) -> dinv (fw_d st').
  Proof.
    intros b st t st' k D E. unfold x_step_with in E. destruct (fa_get (au st) t) as [w|] eqn:G; [|discriminate]. cbn [obind] in E. apply fa_get_Some in G. destruct G as [Ht ->].
    destruct (x_delta_loop P mx b st t (fa_weight (au st) t)) as [st1|] eqn:E1; [|discriminate]. cbn [obind] in E. apply (x_delta_loop_keeps b st t st1 (au st) (keeps_refl _ D) Ht) in E1.
    destruct (Nat.leb (pd_n P) (e_src t)); [injection E as <- <-; apply E1|]. destruct (nth_error (pd_states P) (e_src t)) as [s|]; [|discriminate]. cbn [obind] in E.
    match type of E with obind ?X _ = _ => destruct X as [st2|] eqn:E2; [|discriminate] end. cbn [obind] in E. injection E as <- <-.
    assert (K2 : keeps (au st) st2); [|destruct K2 as [[K2 K3] _]; split; auto].
    eapply (ofold_keep _ _ (keeps (au st))); [|exact E1|exact E2]. intros s1 p s2 _ K E. cbn beta in E.
    destruct (nth_error (pd_states P) p) as [sp|] eqn:Hp; [|discriminate]. cbn [obind] in E. eapply (ofold_keep _ _ (keeps (au st))); [|exact K|exact E]. intros s3 [id [r ls]] s4 Hv K3 E4. cbn beta in E4.
    eapply x_rule_keeps; eauto. rewrite <- (nth_error_rules_at _ _ _ Hp). auto.
  Qed.

  (** initialize leaves the automaton with its default traces; add_pop adds edges. *)
  Lemma x_init_keeps : forall A st, (forall e, In e (ES A) -> exists l, e_lab e = Some l /\ l < pd_nlab P) -> incl (ES A) E0 -> fdefault A -> x_init P mx A = Some st -> dinv (fw_d st).
  Proof.
    intros A st HL HE DF E. unfold x_init in E.
    match type of E with obind ?X _ = _ => destruct X as [st1|] eqn:E1; [|discriminate] end. cbn [obind] in E.
    assert (I1 : x_aut (fw_d st1) = A /\ x_delta (fw_d st1) = []).
    { eapply (ofold_keep _ _ (fun st => x_aut (fw_d st) = A /\ x_delta (fw_d st) = [])); [| |exact E1]; [|split; reflexivity]. intros s q s' _ K Es. cbn beta in Es. unfold x_init_state in Es.
      eapply (ofold_keep _ _ (fun st => x_aut (fw_d st) = A /\ x_delta (fw_d st) = [])); [|exact K|exact Es]. intros s1 z s2 _ K1 Es1. cbn beta in Es1.
      eapply (ofold_keep _ _ (fun st => x_aut (fw_d st) = A /\ x_delta (fw_d st) = [])); [|exact K1|exact Es1]. intros s3 l s4 _ K3 Es3. cbn beta in Es3. unfold x_init_edge in Es3.
      destruct (find_edge _ _) as [[]|]; try discriminate. destruct (fa_trace2 _ _); try discriminate. destruct (fa_weight _ _) as [[]|]; try discriminate. destruct (Nat.ltb _ _); [|discriminate]. injection Es3 as <-. exact K3. }
    destruct I1 as [I1 I2].
    assert (D1 : dinv (fw_d st1)).
    { split; [rewrite I2; intros z p id []|]. rewrite I1. constructor; auto. intros e He. left. apply in_map_iff in He. destruct He as ([e' t'] & Ee & He). cbn in Ee. subst e'. destruct (DF e t' He) as (D2 & D3 & D4). ands; auto. apply HE. apply (in_map fst) in He. exact He. }
    match type of E with obind ?X _ = _ => destruct X as [st2|] eqn:E2; [|discriminate] end. cbn [obind] in E. injection E as <-. cbn [x_set_limit fw_d].
    assert (K2 : keeps (au st1) st2); [|apply K2].
    eapply (ofold_keep _ _ (keeps (au st1))); [|apply keeps_refl; exact D1|exact E2]. intros s q s' _ K Es. cbn beta in Es. destruct (accepting _ q) as [bq|]; [|discriminate]. cbn [obind] in Es. destruct bq; [|injection Es as <-; auto]. eapply x_add_pop_keeps; eauto.
  Qed.

  Theorem pre_fix_tinv : forall fuel A A', (forall e, In e (ES A) -> exists l, e_lab e = Some l /\ l < pd_nlab P) -> incl (ES A) E0 -> fdefault A ->
    pre_star_fixed_point P mx fuel A = done A' -> tinv A'.
  Proof.
    intros fuel A A' HL HE DF E. unfold pre_star_fixed_point in E. destruct (x_init P mx A) as [st|] eqn:Ei; [|discriminate]. cbn [obind] in E. apply x_init_keeps in Ei; auto.
    destruct (fw_run xd edge sort_edges (x_step_with P mx) fuel st) as [[st'|]|] eqn:Er; try discriminate. injection E as <-.
    apply (fw_run_keep _ _ _ _ dinv) in Er; auto; [apply Er|]. intros. eapply x_step_with_keeps; eauto.
  Qed.
End Trace.
