(** Proofs about the writing of P-automata and solver instances (InstWriteModel). *)
From Coq Require Import List Arith Lia Bool ZArith String Permutation.
From Verif Require Import Base BaseFacts Spec SpecFacts PdaModel PdaProof TrieModel RefineModel MappingProof TypedModel TypedProof AutModel AutProof NfaModel ConstructProof JsonModel JsonSpec JsonProof JsonWrite
  AutJsonModel AutJsonSpec AutJsonProof InstModel InstSpec InstProof InstWriteModel.
Import ListNotations.
Open Scope string_scope.
Open Scope nat_scope.
Notation tp := (tpda string string).

(** The automaton and the names of its further states can be written: states and labels exist, no edge has the empty label, and the further states all
    have names or none has. *)
Record aut_fits (names : bool) (T : tp) (A : aut) (m : list string) : Prop := {
  af_n : pd_n (t_rules T) <= a_size A;
  af_ord : wf_ord A;
  af_range : forall q l q', aut_edges A q l q' -> q < a_size A /\ q' < a_size A /\ forall x, l = Some x -> x < length (t_labels T);
  af_label : forall q x q', aut_edges A q (Some x) q' -> get_symbol T x <> Some "";
  af_final : exists q, aut_final A q;
  af_map : names = true -> NoDup m /\ (forall s, In s m -> ~ In s (t_states T)) /\ (m = [] \/ a_size A <= pd_n (t_rules T) + length m) }.
Record pda_fits (names : bool) (T : tp) : Prop := {
  pf_labels : NoDup (t_labels T);
  pf_states : NoDup (t_states T);
  pf_n : names = true -> pd_n (t_rules T) = length (t_states T) }.

Definition jref (s : sref) : json := match s with SName x => JStr x | SNum v => JNum (Z.of_nat v) end.
Definition jedge (e : sref * string * sref) : json := JArr [jref (fst (fst e)); JStr (snd (fst e)); jref (snd e)].
Definition arr (k : string) (l : list json) : list (string * json) := match l with [] => [] | _ => [(k, JArr l)] end.
Lemma push_initial : forall acc ini v, obj_push (arr "accepting" acc ++ arr "initial" ini)%list "initial" v = Some (arr "accepting" acc ++ arr "initial" (ini ++ [v]))%list.
Proof. intros [|a acc] [|b ini] v; reflexivity. Qed.
Lemma push_accepting : forall acc ini v, obj_push (arr "accepting" acc ++ arr "initial" ini)%list "accepting" v = Some (arr "accepting" (acc ++ [v]) ++ arr "initial" ini)%list.
Proof. intros [|a acc] [|b ini] v; reflexivity. Qed.
Lemma set_edges : forall acc ini v, obj_set (arr "accepting" acc ++ arr "initial" ini)%list "edges" v = (arr "accepting" acc ++ ("edges", v) :: arr "initial" ini)%list.
Proof. intros [|a acc] [|b ini] v; reflexivity. Qed.

Section Aut.
  Variables (names : bool) (T : tp) (A : aut) (m : list string).
  Notation n := (pd_n (t_rules T)).
  Definition ref_at (q : nat) : sref :=
    if names then if Nat.ltb q n then SName (nth q (t_states T) "") else match nth_error m (q - n) with Some s => SName s | None => SNum q end else SNum q.
  Definition lab_at (l : option nat) : string := match l with None => "" | Some x => nth x (t_labels T) "" end.
  Definition out_edges (q : nat) : list (sref * string * sref) := flat_map (fun t => map (fun l => (ref_at q, lab_at l, ref_at t)) (labels_between A q t)) (tos A q).
  Definition finals : list nat := filter (fun q => nth q (a_acc A) false) (seq 0 (a_size A)).
  Definition written_aut : adoc := mk_adoc (map ref_at finals) (flat_map out_edges (seq 0 (a_size A))).
  Hypothesis HP : pda_fits names T.
  Hypothesis HA : aut_fits names T A m.

  Lemma state_value_ref : forall q, state_value names T m q = Some (jref (ref_at q)).
  Proof.
    intros q. unfold state_value, ref_at. destruct names eqn:EN; [|reflexivity]. unfold state_optional. destruct (Nat.ltb_spec q n) as [L|L].
    - rewrite (pf_n _ _ HP eq_refl) in L. unfold get_state, ts_at. rewrite (List.nth_error_nth' _ "" L). reflexivity.
    - unfold ts_at. cbn [obind]. destruct (nth_error m (q - n)); reflexivity.
  Qed.
  Lemma label_value_at : forall q l q', aut_edges A q l q' -> label_value T l = Some (JStr (lab_at l)).
  Proof.
    intros q [x|] q' H; [|reflexivity]. destruct (af_range _ _ _ _ HA _ _ _ H) as (_ & _ & L). specialize (L x eq_refl). unfold label_value, get_symbol, ts_at. rewrite (List.nth_error_nth' _ "" L). reflexivity.
  Qed.
  Lemma edges_value_ok : forall q es, edges_value names T A m q (jref (ref_at q)) es = Some (es ++ map jedge (out_edges q))%list.
  Proof.
    intros q. unfold edges_value, out_edges. assert (HT : forall t, In t (tos A q) -> forall l, In l (labels_between A q t) -> label_value T l = Some (JStr (lab_at l))).
    { intros t _ l Hl. apply labels_between_In in Hl. eapply label_value_at; eauto. }
    induction (tos A q) as [|t ts IH]; intros es; cbn [ofold flat_map]; [cbn; rewrite app_nil_r; auto|]. rewrite state_value_ref. cbn [obind].
    assert (G : forall ls es, (forall l, In l ls -> label_value T l = Some (JStr (lab_at l))) ->
      ofold (fun es l => x <- label_value T l ;; Some (es ++ [JArr [jref (ref_at q); x; jref (ref_at t)]])%list) ls es = Some (es ++ map jedge (map (fun l => (ref_at q, lab_at l, ref_at t)) ls))%list).
    { induction ls as [|l ls IHl]; intros es' H; cbn [ofold map]; [rewrite app_nil_r; auto|]. rewrite H by (cbn; auto). cbn [obind]. rewrite IHl by (intros; apply H; cbn; auto). rewrite <- app_assoc. reflexivity. }
    rewrite G by (apply HT; cbn; auto). cbn [obind]. rewrite IH by (intros; eapply HT; cbn; eauto). rewrite map_app, app_assoc. reflexivity.
  Qed.
  Definition inits (wi : bool) (qs : list nat) : list nat := filter (fun q => wi && Nat.ltb q n) qs.
  Lemma states_ok : forall wi qs acc ini es, (forall q, In q qs -> q < a_size A) ->
    ofold (state_out names T A m wi) qs (arr "accepting" acc ++ arr "initial" ini, es)%list =
    Some (arr "accepting" (acc ++ map jref (map ref_at (filter (fun q => nth q (a_acc A) false) qs))) ++ arr "initial" (ini ++ map jref (map ref_at (inits wi qs))), es ++ map jedge (flat_map out_edges qs))%list.
  Proof.
    intros wi. induction qs as [|q qs IH]; intros acc ini es H; cbn [ofold]; [cbn; rewrite !app_nil_r; auto|].
    assert (Lq := H q (or_introl eq_refl)). unfold state_out at 1. rewrite state_value_ref. cbn [obind fst snd]. unfold accepting, a_size in *. rewrite (List.nth_error_nth' _ false Lq).
    replace (if wi && Nat.ltb q n then obj_push (arr "accepting" acc ++ arr "initial" ini)%list "initial" (jref (ref_at q)) else Some (arr "accepting" acc ++ arr "initial" ini)%list)
      with (Some (arr "accepting" acc ++ arr "initial" (ini ++ if wi && Nat.ltb q n then [jref (ref_at q)] else []))%list)
      by (destruct (wi && _); [rewrite push_initial; auto|rewrite app_nil_r; auto]).
    cbn [obind]. set (ini' := (ini ++ _)%list).
    replace (if nth q (a_acc A) false then obj_push (arr "accepting" acc ++ arr "initial" ini')%list "accepting" (jref (ref_at q)) else Some (arr "accepting" acc ++ arr "initial" ini')%list)
      with (Some (arr "accepting" (acc ++ if nth q (a_acc A) false then [jref (ref_at q)] else []) ++ arr "initial" ini')%list)
      by (destruct (nth q (a_acc A) false); [rewrite push_accepting; auto|rewrite app_nil_r; auto]).
    cbn [obind]. rewrite edges_value_ok. cbn [obind]. rewrite IH by (intros; apply H; cbn; auto). unfold ini', inits. cbn [filter flat_map]. rewrite map_app, <- !app_assoc.
    destruct (nth q (a_acc A) false), (wi && Nat.ltb q n); reflexivity.
  Qed.
  Lemma value_ok : forall wi, aut_value names T A m wi =
    Some (JObj (arr "accepting" (map jref (ad_acc written_aut)) ++ ("edges", JArr (map jedge (ad_edges written_aut))) :: arr "initial" (map jref (map ref_at (inits wi (seq 0 (a_size A))))))%list).
  Proof.
    intros wi. unfold aut_value. change (@nil (string * json), @nil json) with (arr "accepting" [] ++ arr "initial" [], @nil json)%list. rewrite states_ok by (intros q H; apply in_seq in H; lia). cbn [obind fst snd app]. rewrite set_edges. reflexivity.
  Qed.
  Lemma final_In : forall q, In q finals <-> aut_final A q.
  Proof.
    intros q. unfold finals. rewrite filter_In, in_seq. unfold aut_final, a_size. split.
    - intros [H1 H2]. rewrite (List.nth_error_nth' _ false) by lia. congruence.
    - intros H. assert (q < length (a_acc A)) by (apply nth_error_Some; congruence). split; [lia|]. apply nth_error_nth with (d := false) in H. auto.
  Qed.
  Lemma edge_In : forall s l s', In (s, l, s') (ad_edges written_aut) <-> exists q x q', aut_edges A q x q' /\ s = ref_at q /\ l = lab_at x /\ s' = ref_at q'.
  Proof.
    intros s l s'. cbn. rewrite in_flat_map. split.
    - intros (q & _ & H). apply in_flat_map in H. destruct H as (t & _ & H). apply in_map_iff in H. destruct H as (x & E & H). injection E as <- <- <-. apply labels_between_In in H. eauto 10.
    - intros (q & x & q' & H & -> & -> & ->). exists q. split; [apply in_seq; destruct (af_range _ _ _ _ HA _ _ _ H); lia|]. apply in_flat_map. exists q'. split; [apply tos_In; [apply HA|eauto]|]. apply in_map_iff. exists x. split; auto. apply labels_between_In. auto.
  Qed.
  Lemma ref_inj : forall q q', q < a_size A -> q' < a_size A -> ref_at q = ref_at q' -> q = q'.
  Proof.
    intros q q' L L' E. unfold ref_at in E. destruct names eqn:EN; [|congruence]. destruct (af_map _ _ _ _ HA eq_refl) as (M1 & M2 & _). assert (N := pf_n _ _ HP eq_refl).
    assert (IS : forall i, i < n -> In (nth i (t_states T) "") (t_states T)) by (intros; apply nth_In; lia).
    destruct (Nat.ltb_spec q n), (Nat.ltb_spec q' n).
    - injection E as E. apply (proj1 (NoDup_nth (t_states T) "") (pf_states _ _ HP)); auto; lia.
    - destruct (nth_error m (q' - n)) as [s|] eqn:E0; [|discriminate]. injection E as E. apply nth_error_In in E0. exfalso. apply (M2 _ E0). rewrite <- E. auto.
    - destruct (nth_error m (q - n)) as [s|] eqn:E0; [|discriminate]. injection E as E. apply nth_error_In in E0. exfalso. apply (M2 _ E0). rewrite E. auto.
    - destruct (nth_error m (q - n)) as [s|] eqn:E0, (nth_error m (q' - n)) as [s'|] eqn:E1; try discriminate; [|congruence]. injection E as E. subst s'.
      assert (q - n = q' - n); [|lia]. eapply (proj1 (NoDup_nth_error m) M1); [apply nth_error_Some; congruence|congruence].
  Qed.

  (** ** Meaning *)
  Lemma lab_word : forall x l, exists_label String.eqb T l = Some x <-> x < length (t_labels T) /\ lab_at (Some x) = l.
  Proof.
    intros x l. unfold exists_label. split.
    - intros H. apply (tr_index_Some string String.eqb String.eqb_eq) in H. split; [apply nth_error_Some; congruence|]. cbn. apply nth_error_nth. auto.
    - intros [H1 H2]. apply (tr_index_nth string String.eqb String.eqb_eq); [apply HP|]. rewrite (List.nth_error_nth' _ "" H1). cbn in H2. congruence.
  Qed.
  Lemma lab_nonempty : forall q x q', aut_edges A q (Some x) q' -> lab_at (Some x) <> "".
  Proof.
    intros q x q' H E. apply (af_label _ _ _ _ HA _ _ _ H). destruct (af_range _ _ _ _ HA _ _ _ H) as (_ & _ & L). specialize (L x eq_refl). unfold get_symbol, ts_at. rewrite (List.nth_error_nth' _ "" L). cbn in E. congruence.
  Qed.
  Lemma path_doc : forall q v q', apath (aut_edges A) q v q' -> forall w, Forall2 (fun l x => exists_label String.eqb T l = Some x) w v -> dpath (ad_edges written_aut) (ref_at q) w (ref_at q').
  Proof.
    intros q v q' H. induction H as [q|q x q1 v q2 H1 H IH|q q1 v q2 H1 H IH]; intros w F.
    - inversion F; subst. constructor.
    - inversion F as [|l ? w' ? F1 F2]; subst. apply lab_word in F1. destruct F1 as [_ F1]. subst l. apply dp_label with (ref_at q1); auto; [apply edge_In; eauto 10|]. eapply lab_nonempty; eauto.
    - apply dp_empty with (ref_at q1); auto. apply edge_In. exists q, None, q1. auto.
  Qed.
  Lemma doc_path : forall s w s', dpath (ad_edges written_aut) s w s' -> forall q v, q < a_size A -> s = ref_at q -> Forall2 (fun l x => exists_label String.eqb T l = Some x) w v ->
    exists q', q' < a_size A /\ s' = ref_at q' /\ apath (aut_edges A) q v q'.
  Proof.
    intros s w s' H. induction H as [s|s l s1 w s2 H1 H2 H IH|s s1 w s2 H1 H IH]; intros q v L -> F.
    - inversion F; subst. exists q. split; auto. split; auto. constructor.
    - inversion F as [|? x ? v' F1 F2]; subst. apply edge_In in H1. destruct H1 as (a & y & b & E1 & E2 & E3 & ->). destruct (af_range _ _ _ _ HA _ _ _ E1) as (La & Lb & Ly). apply ref_inj in E2; auto. subst a. destruct y as [y|]; [|destruct H2; auto].
      assert (x = y). { specialize (Ly y eq_refl). assert (exists_label String.eqb T l = Some y) by (apply lab_word; auto). congruence. } subst y.
      destruct (IH b v' Lb eq_refl F2) as (q' & Q1 & Q2 & Q3). exists q'. split; auto. split; auto. econstructor; eauto.
    - apply edge_In in H1. destruct H1 as (a & y & b & E1 & E2 & E3 & ->). destruct (af_range _ _ _ _ HA _ _ _ E1) as (La & Lb & Ly). apply ref_inj in E2; auto. subst a. destruct y as [y|]; [exfalso; eapply lab_nonempty; eauto|].
      destruct (IH b v Lb eq_refl F) as (q' & Q1 & Q2 & Q3). exists q'. split; auto. split; auto. eapply ap_eps; eauto.
  Qed.
  Lemma written_lang : forall q w v, q < n -> Forall2 (fun l x => exists_label String.eqb T l = Some x) w v -> (aut_lang n A (q, v) <-> daccepts written_aut (ref_at q) w).
  Proof.
    intros q w v L F. assert (LA : q < a_size A) by (assert (X := af_n _ _ _ _ HA); lia). split.
    - intros (_ & f & H1 & H2). exists (ref_at f). split; [cbn; apply in_map; apply final_In; auto|]. eapply path_doc; eauto.
    - intros (s & H1 & H2). cbn in H1. apply in_map_iff in H1. destruct H1 as (f & <- & H1). apply final_In in H1. destruct (doc_path _ _ _ H2 q v LA eq_refl F) as (q' & Q1 & Q2 & Q3).
      assert (f < a_size A) by (unfold a_size; apply nth_error_Some; unfold aut_final in H1; congruence). apply ref_inj in Q2; auto. subst q'. split; auto. exists f. auto.
  Qed.
  Lemma written_labels : forall l, In l (adoc_labels written_aut) -> In l (t_labels T).
  Proof.
    intros l H. apply adoc_labels_In in H. destruct H as (H0 & s & s' & H). apply edge_In in H. destruct H as (q & [x|] & q' & H & _ & -> & _); [|destruct H0; auto]. cbn. apply nth_In. apply (af_range _ _ _ _ HA _ _ _ H). auto.
  Qed.
  Lemma edge_word : forall q x q' l, aut_edges A q (Some x) q' -> exists_label String.eqb T l = Some x -> In l (adoc_labels written_aut).
  Proof.
    intros q x q' l H K. apply lab_word in K. destruct K as [_ <-]. apply adoc_labels_In. split; [eapply lab_nonempty; eauto|]. exists (ref_at q), (ref_at q'). apply edge_In. eauto 10.
  Qed.

  (** ** The document *)
  Variable known : sref -> bool.
  Hypothesis HK : forall q, q < n -> known (ref_at q) = true.
  Lemma ref_read : forall q, ref_of names (jref (ref_at q)) = Some (ref_at q).
  Proof.
    intros q. unfold ref_at. assert (X : forall k, ref_of names (JNum (Z.of_nat k)) = Some (SNum k)) by (intros k; cbn; destruct (Z.ltb_spec (Z.of_nat k) 0); [lia|]; rewrite Nat2Z.id; auto).
    destruct names eqn:EN; [|apply X]. destruct (Nat.ltb q n); [reflexivity|]. destruct (nth_error m (q - n)); [reflexivity|apply X].
  Qed.
  Lemma refs_read : forall l, omap (ref_of names) (map jref (map ref_at l)) = Some (map ref_at l).
  Proof. induction l as [|q l IH]; cbn [omap map]; auto. rewrite ref_read, IH. reflexivity. Qed.
  Lemma edges_read : forall es, (forall e, In e es -> exists q q', fst (fst e) = ref_at q /\ snd e = ref_at q') -> omap (edge_of names) (map jedge es) = Some es.
  Proof.
    induction es as [|[[s l] s'] es IH]; intros H; cbn [omap map]; auto. destruct (H _ (or_introl eq_refl)) as (q & q' & E1 & E2). cbn [fst snd] in E1, E2. subst s s'. unfold edge_of at 1. unfold jedge at 1. cbn [fst snd]. rewrite !ref_read. cbn [obind]. rewrite IH by (intros; apply H; cbn; auto). reflexivity.
  Qed.
  Lemma some_inj : forall X (a b : X), Some a = Some b -> a = b.
  Proof. intros X a b H. injection H. auto. Qed.
  Lemma written_read : forall wi opt j, aut_value names T A m wi = Some j -> (opt = false -> wi = true /\ 0 < n) -> padoc_of names known opt j = Some written_aut.
  Proof.
    intros wi opt j HJ HO. rewrite value_ok in HJ. apply some_inj in HJ. subst j. unfold padoc_of.
    assert (NE : exists a l, map jref (ad_acc written_aut) = a :: l). { destruct (af_final _ _ _ _ HA) as [q Hq]. apply final_In in Hq. cbn. destruct finals as [|f l]; [destruct Hq|cbn; eauto]. }
    destruct NE as (a & l0 & NE). assert (RA := refs_read finals). change (map jref (map ref_at finals)) with (map jref (ad_acc written_aut)) in RA. rewrite NE in *.
    assert (RE : omap (edge_of names) (map jedge (ad_edges written_aut)) = Some (ad_edges written_aut)).
    { apply edges_read. intros [[s l] s'] He. apply edge_In in He. destruct He as (q & x & q' & _ & -> & -> & ->). cbn. eauto. }
    set (jini := map jref (map ref_at (inits wi (seq 0 (a_size A))))).
    assert (IO : initial_ok names known (JArr jini) = true).
    { cbn. apply forallb_forall. intros x Hx. unfold jini in Hx. rewrite map_map in Hx. apply in_map_iff in Hx. destruct Hx as (q & <- & Hq). apply filter_In in Hq. destruct Hq as [_ Hq]. apply andb_prop in Hq. destruct Hq as [_ Hq]. assert (K : known (ref_at q) = true) by (apply HK; apply Nat.ltb_lt; auto).
      unfold ref_at in *. rewrite Hq in *. destruct names eqn:EN; cbn; auto. rewrite Nat2Z.id, K. destruct (Z.leb_spec 0 (Z.of_nat q)); auto. lia. }
    assert (NI : opt = false -> jini <> []).
    { intros E. destruct (HO E) as [-> L]. unfold jini, inits. assert (X := af_n _ _ _ _ HA). destruct (a_size A) as [|k]; [lia|]. cbn [seq filter]. apply Nat.ltb_lt in L. rewrite L. discriminate. }
    set (jes := map jedge (ad_edges written_aut)) in *. clearbody jini jes. destruct jini as [|b ini]; cbn -[initial_ok omap ref_of edge_of].
    - rewrite RA, RE. cbn. destruct opt; [reflexivity|]. destruct NI; auto.
    - rewrite RA, RE. cbn -[initial_ok]. rewrite IO. destruct opt; reflexivity.
  Qed.
  Lemma written_regular : forall wi j, aut_value names T A m wi = Some j -> regular_pa names known j.
  Proof.
    intros wi j HJ. rewrite value_ok in HJ. apply some_inj in HJ. subst j.
    exists (match m with [] => false | _ => true end). set (mode := match m with [] => false | _ => true end).
    assert (RM : forall q, q < a_size A -> ref_mode names known mode (jref (ref_at q))).
    { intros q L. unfold ref_at. destruct names eqn:EN; [|cbn; discriminate]. destruct (Nat.ltb_spec q n) as [L1|L1].
      - cbn. right. assert (K := HK q L1). unfold ref_at in K. rewrite EN in K. apply Nat.ltb_lt in L1. rewrite L1 in K. exact K.
      - destruct (af_map _ _ _ _ HA eq_refl) as (_ & _ & M). unfold mode. destruct m as [|s m']; [destruct (q - n); cbn; auto|]. destruct M as [M|M]; [discriminate|].
        destruct (nth_error (s :: m') (q - n)) eqn:E; [cbn; auto|]. apply nth_error_None in E. lia. }
    apply Forall_app. split; [|constructor].
    - destruct (map jref (ad_acc written_aut)) as [|a l] eqn:E; constructor; [|constructor]. unfold regular_member. cbn [fst snd]. cbn. rewrite <- E. apply Forall_forall. intros x Hx. cbn in Hx. rewrite map_map in Hx. apply in_map_iff in Hx. destruct Hx as (q & <- & Hq). apply RM. apply filter_In in Hq. destruct Hq as [Hq _]. apply in_seq in Hq. lia.
    - unfold regular_member. cbn [fst snd]. cbn. apply Forall_forall. intros x Hx. apply in_map_iff in Hx. destruct Hx as ([[s l] s'] & <- & Hx). apply edge_In in Hx. destruct Hx as (q & y & q' & He & -> & -> & ->). destruct (af_range _ _ _ _ HA _ _ _ He) as (L1 & L2 & _). cbn. split; [apply RM; auto|]. split; [intros []|]. split; [apply RM; auto|constructor].
    - set (jini := map jref _). destruct jini as [|b ini] eqn:E; constructor; [|constructor]. unfold regular_member. cbn. rewrite <- E. apply Forall_forall. intros x Hx. unfold jini in Hx. apply in_map_iff in Hx. destruct Hx as ([y|y] & <- & _); intros [].
  Qed.
End Aut.

(** ** Instances *)
Lemma dreach_restrict : forall L L' d c c', dreach L d c c' -> (forall l, In l (doc_labels d) -> In l L') -> (forall l, In l (snd c) -> In l L') -> dreach L' d c c'.
Proof.
  intros L L' d c c' H HD. induction H as [c|c1 c2 c3 H1 H2 IH]; intros HC; [constructor|]. destruct H1 as [r w (ms & l & rs & x & K1 & K2 & K3 & K4 & K5 & K6)].
  assert (OL : forall k, In k (op_labels l (d_op x)) -> In k L').
  { intros k Hk. apply HD. unfold doc_labels. apply in_flat_map. exists (n_from r, ms). split; auto. apply in_flat_map. exists (l, rs). split; auto. apply in_or_app. right. apply in_flat_map. exists x. auto. }
  assert (HP : In (n_pre r) L') by (apply HC; cbn; auto). assert (HW : forall k, In k w -> In k L') by (intros; apply HC; cbn; auto).
  assert (HO : forall k, match n_op r with DPop => False | DSwap y | DPush y => k = y end -> In k L').
  { intros k Hk. destruct (String.eqb_spec l "*") as [->|NE].
    - destruct K6 as [_ K6]. rewrite K6 in Hk. destruct (d_op x) as [|y|y]; [destruct Hk| |subst; apply OL; cbn; auto]. destruct (String.eqb_spec y "*") as [EY|NE]; [subst; auto|]. subst. apply OL. cbn. apply String.eqb_neq in NE. rewrite NE. cbn. auto.
    - destruct K6 as [_ K6]. rewrite K6 in Hk. destruct (d_op x) as [|y|y]; [destruct Hk| |subst; apply OL; cbn; auto]. subst. apply OL. cbn. apply String.eqb_neq in NE. rewrite NE. cbn. auto. }
  apply dr_step with (n_to r, apply_dop (n_op r) (n_pre r) w).
  - constructor. exists ms, l, rs, x. repeat (split; auto). destruct (String.eqb l "*"); auto. destruct K6. auto.
  - apply IH. intros k. cbn [snd]. unfold apply_dop. destruct (n_op r) as [|y|y]; cbn; auto; intros [<-|K]; auto.
Qed.
Lemma written_mono : forall L L' d r, (forall x, In x L -> In x L') -> written_over L d r -> written_over L' d r.
Proof.
  intros L L' d r H (ms & l & rs & x & H1 & H2 & H3 & H4 & H5 & H6). exists ms, l, rs, x. do 5 (split; auto). destruct (String.eqb l "*"); auto. destruct H6 as [H6 H7]. split; auto.
Qed.
Lemma dreach_mono : forall L L' d, (forall x, In x L -> In x L') -> forall e e', dreach L d e e' -> dreach L' d e e'.
Proof.
  intros L L' d H e e' K. induction K as [c|c1 c2 c3 K1 K2 IH]; [constructor|]. apply dr_step with c2; auto. destruct K1 as [r w K1]. constructor. eapply written_mono; eauto.
Qed.
(** Without names: the last state has a rule from it or to it. *)
Definition last_used (names : bool) (T : tp) : Prop :=
  names = false -> 0 < pd_n (t_rules T) -> exists p r i, stored (t_rules T) p r i /\ (S p = pd_n (t_rules T) \/ S (r_to r) = pd_n (t_rules T)).

Section Inst.
  Variable cf : jcfg.
  Variable wjson : option (Z -> json).
  Notation names := (cf_names cf).
  Notation wk := (cf_w cf).
  Variables (cs : list (tcall string string)) (T : tp) (A1 A2 : aut) (m1 m2 : list string).
  Hypothesis HI : tinv string String.eqb string (cf_no_opl cf) cs T.
  Hypothesis HWF : wf_pda (t_rules T).
  Hypothesis HW : forall p e, In e (rules_at (t_rules T) p) -> wok cf wjson (r_w (fst e)).
  Hypothesis HN : names = true -> pd_n (t_rules T) = length (t_states T).
  Hypothesis HS : ~ In "*" (t_labels T).
  Hypothesis HL : last_used names T.
  Hypothesis F1 : aut_fits names T A1 m1.
  Hypothesis F2 : aut_fits names T A2 m2.
  Notation n := (pd_n (t_rules T)).
  Notation D1 := (written_aut names T A1 m1).
  Notation D2 := (written_aut names T A2 m2).
  Lemma fits : pda_fits names T.
  Proof. constructor; auto; apply HI. Qed.
  Lemma target : forall p r ls, In (r, ls) (rules_at (t_rules T) p) -> r_to r < n.
  Proof.
    intros p r ls H. assert (L : p < n). { destruct (Nat.lt_ge_cases p n); auto. rewrite rules_at_overflow in H by auto. destruct H. }
    apply nth_error_Some in L. destruct (nth_error (pd_states (t_rules T)) p) as [s|] eqn:Es; [|congruence]. eapply (wf_to _ HWF); eauto. unfold rules_at in H. erewrite nth_error_nth in H by eauto. exact H.
  Qed.
  Lemma ref_resolves : forall m i, i < n -> resolves cf T (ref_at names T m i) i.
  Proof.
    intros m i L. unfold ref_at, resolves. assert (X := HN). destruct names eqn:EN; auto. assert (L1 := L). apply Nat.ltb_lt in L1. rewrite L1. split; auto.
    apply (tr_index_nth string String.eqb String.eqb_eq); [apply HI|]. apply List.nth_error_nth'. rewrite <- X; auto.
  Qed.
  Lemma resolves_ref : forall m s i, i < n -> resolves cf T s i -> s = ref_at names T m i.
  Proof. intros m s i L H. eapply res_inj; eauto. apply ref_resolves. auto. Qed.
  Lemma inst_ok : exists j d, pda_value wjson names T = Some j /\ regular_pda wk j /\ pda_of names wk (cf_asserts cf) j = Some d /\
    (forall s, doc_state names d s = true <-> exists i, i < n /\ resolves cf T s i) /\ numbered names d /\
    (forall f r, In (f, r) (drules d) -> exists p e, In e (rules_at (t_rules T) p) /\ wval cf (d_w r) = r_w (fst e)) /\
    (can_reach (pda_rules (t_rules T)) (aut_lang n A1) (aut_lang n A2) <-> inst_reach (mk_idoc names wk d D1 D2)).
  Proof.
    assert (HT : names = true -> forall p e, In e (rules_at (t_rules T) p) -> r_to (fst e) < length (t_states T)).
    { intros E p [r ls] H. cbn. rewrite <- HN by auto. eapply target; eauto. }
    destruct (JsonWrite.value_ok cf wjson cs T HI HW HT HN) as (j & d & J1 & J2 & J3 & J4 & J5 & JL & J6 & J7 & J8). exists j, d. split; auto. split; auto. split; auto.
    destruct (rules_of_doc cf cs T HI HN HS d J6 J7 J8) as (rs & R1 & R2 & R3 & R4).
    assert (EN : forall p l r, In (l, r) (flat_map (entries T) (rules_at (t_rules T) p)) -> exists ls, In (r, ls) (rules_at (t_rules T) p)).
    { intros p l r H. apply in_flat_map in H. destruct H as ([r' ls] & H1 & H2). unfold entries in H2. cbn [fst snd] in H2. exists ls. destruct (wild ls); [destruct H2 as [H2|[]]; injection H2 as <- <-; auto|]. apply in_map_iff in H2. destruct H2 as (i & H2 & _). injection H2 as <- <-. auto. }
    assert (DR : forall f r, In (f, r) (drules d) -> exists p e, In e (rules_at (t_rules T) p) /\ resolves cf T (d_to r) (r_to (fst e)) /\ wval cf (d_w r) = r_w (fst e)).
    { intros f r H. apply drules_In in H. destruct H as (ms & l & xs & H1 & H2 & H3). destruct (J6 _ _ _ _ _ H1 H2 H3) as (p & rl & P1 & P2 & P3). destruct (EN _ _ _ P2) as [ls P4]. exists p, (rl, ls). split; auto. destruct P3 as (Q1 & Q2 & _). auto. }
    assert (DS : forall s, doc_state names d s = true <-> exists i, i < n /\ resolves cf T s i).
    { intros [x|v]; cbn [doc_state].
      - destruct names eqn:E; cbn [andb]; [|split; [discriminate|intros (i & _ & K & _); congruence]]. rewrite orb_true_iff, !existsb_exists. split.
        + intros [([f ms] & H1 & H2)|([f r] & H1 & H2)]; cbn [fst snd] in H2.
          * destruct (J4 _ _ H1) as (i & K1 & K2). unfold is_name in H2. destruct f as [y|y]; [|discriminate]. apply String.eqb_eq in H2. subst y. eauto.
          * destruct (DR _ _ H1) as (p & [rl ls] & K1 & K2 & _). unfold is_name in H2. destruct (d_to r) as [y|y]; [|discriminate]. apply String.eqb_eq in H2. subst y. cbn [fst] in K2. eexists. split; [eapply target; eauto|exact K2].
        + intros (i & L & H). destruct (J5 i L) as (f & ms & K1 & K2). left. exists (f, ms). split; auto. assert (f = SName x) by (eapply res_inj; eauto). subst f. cbn. apply String.eqb_refl.
      - destruct names eqn:E; cbn [andb negb]; [split; [discriminate|intros (i & _ & K & _); congruence]|]. rewrite orb_true_iff, existsb_exists, Nat.ltb_lt, (JL eq_refl). split.
        + intros [H|([f r] & H1 & H2)]; [exists v; repeat split; auto|]. cbn [fst snd] in H2. destruct (DR _ _ H1) as (p & [rl ls] & K1 & K2 & _). unfold is_up_to in H2. destruct (d_to r) as [y|y]; [discriminate|]. apply Nat.leb_le in H2. destruct K2 as [_ K2]. cbn [fst] in K2. apply target in K1. exists v. repeat split; auto. lia.
        + intros (i & L & _ & ->). auto. }
    split; auto. split; [|split].
    - intros E v Lv. rewrite (JL E) in Lv. destruct (HL E) as (p & r & i & H1 & H2); [lia|].
      assert (X : exists l, In (l, r) (flat_map (entries T) (rules_at (t_rules T) p))).
      { destruct H1 as (ls & L1 & L2). destruct (wild ls) eqn:EW.
        - exists "*". apply in_flat_map. exists (r, ls). split; auto. unfold entries. cbn [fst snd]. rewrite EW. cbn. auto.
        - destruct L2 as [L2|L2]; [congruence|]. exists (JsonWrite.sym T i). apply in_flat_map. exists (r, ls). split; auto. unfold entries. cbn [fst snd]. rewrite EW. apply in_map_iff. exists i. auto. }
      destruct X as [l X]. destruct (J7 _ _ _ X) as (f & ms & xs & x & X1 & X2 & X3 & X4 & (Q1 & _)). apply existsb_exists. exists (f, x). split; [apply drules_In; exists ms, l, xs; auto|]. cbn [fst snd].
      destruct f as [y|y]; [destruct X1; congruence|]. destruct (d_to x) as [z|z]; [destruct Q1; congruence|]. destruct X1 as [_ X1]. destruct Q1 as [_ Q1]. subst y z. cbn. apply orb_true_iff. rewrite !Nat.leb_le. lia.
    - intros f r H. destruct (DR _ _ H) as (p & e & K1 & _ & K2). eauto.
    - unfold can_reach, inst_reach, id_labels. cbn [id_names id_pda id_first id_second].
      assert (SUB : forall l, In l (doc_labels d ++ adoc_labels D1 ++ adoc_labels D2)%list -> In l (t_labels T)).
      { intros l H. rewrite !in_app_iff in H. destruct H as [H|[H|H]]; auto; [apply (written_labels names T A1 m1 F1 l H)|apply (written_labels names T A2 m2 F2 l H)]. }
      split.
      + intros ([i v] & [k u] & HA1 & HA2 & HR). assert (HA1' := HA1). destruct HA1' as (Li & f & P1 & _). cbn [fst snd] in *.
        destruct (word_names T v (ti_nd _ _ _ _ _ _ HI)) as [w HWd]. { intros x Hx. destruct (apath_labels _ _ _ _ P1 x Hx) as (a & b & He). apply (af_range _ _ _ _ F1 _ _ _ He). auto. }
        destruct (srel_reach_doc cf d (t_labels T) T cs rs HWF HI R1 R3 _ _ HR (ref_at names T m1 i, w)) as ([s' w'] & HD & H1 & H2 & H3).
        { split; [apply ref_resolves; auto|]. split; auto. }
        cbn [fst snd] in *. exists (ref_at names T m1 i), w, s', w'. split; [apply DS; exists i; split; auto; apply ref_resolves; auto|]. split; [apply (written_lang names T A1 m1 fits F1 i w v); auto|]. split.
        * eapply dreach_restrict; [exact HD|intros; apply in_or_app; auto|]. cbn [snd]. intros l Hl. apply in_or_app. right. apply in_or_app. left.
          assert (G : forall w v, Forall2 (fun l x => exists_label String.eqb T l = Some x) w v -> (forall x, In x v -> exists a b, aut_edges A1 a (Some x) b) -> forall l, In l w -> In l (adoc_labels D1)).
          { clear - HI HN F1. intros w v F. induction F as [|a x w v H F IH]; intros K l Hl; [destruct Hl|]. destruct Hl as [<-|Hl]; [|apply IH; auto; intros; apply K; cbn; auto]. destruct (K x (or_introl eq_refl)) as (b & c & He). eapply edge_word; eauto. apply fits. }
          apply (G _ _ HWd); auto. intros x Hx. apply (apath_labels _ _ _ _ P1 x Hx).
        * assert (s' = ref_at names T m2 k) by (apply resolves_ref; auto). subst s'. apply (written_lang names T A2 m2 fits F2 k w' u); auto.
      + intros (s & w & s' & w' & HK & DA1 & HD & DA2). apply DS in HK. destruct HK as (i & Li & Hi).
        destruct (word_numbers T w (ti_nd _ _ _ _ _ _ HI)) as [v HWd].
        { intros l Hl. destruct DA1 as (f & _ & P). destruct (dpath_labels _ _ _ _ P l Hl) as (K1 & a & b & K2). apply (written_labels names T A1 m1 F1). apply adoc_labels_In. eauto. }
        apply (dreach_mono _ _ _ SUB) in HD. destruct (srel_doc_reach cf d (t_labels T) T cs rs HWF HI R1 R2 _ _ HD (i, v)) as ([k u] & HR & H1 & H2 & H3); [split; auto|]. cbn [fst snd] in *.
        exists (i, v), (k, u). assert (s = ref_at names T m1 i) by (apply resolves_ref; auto). assert (s' = ref_at names T m2 k) by (apply resolves_ref; auto). subst s s'. split; [|split]; auto.
        * apply (written_lang names T A1 m1 fits F1 i w v); auto.
        * apply (written_lang names T A2 m2 fits F2 k w' u); auto.
  Qed.
End Inst.
