(** Proofs about the PDA factories (FactoryModel.v). *)
From Coq Require Import List Arith Lia Bool ZArith Sorted Permutation.
From Verif Require Import Base BaseFacts Spec SpecFacts PdaModel PdaProof ContainersModel ContainersProof AutModel AutProof NfaModel NfaProof NfaQueryModel NfaQueryProof ConstructProof ProductModel RefineModel MappingProof
  PreStarLang QueryProof SolverModel VerdictModel SolverProof ProductProof PostStarLang FactoryModel.
Import ListNotations.

(** * The hash store and its conversion *)
Definition keys_nd (l : list (rule * labels)) : Prop := NoDup (map fst l).

Lemma rsorted_keys : forall l, rsorted l -> keys_nd l.
Proof.
  induction l as [|x l IH]; intros H; [constructor|]. apply rsorted_cons in H. destruct H as [H1 H2]. constructor; [|apply IH; auto].
  intros Hi. apply in_map_iff in Hi. destruct Hi as [y [E Hy]]. apply H2 in Hy. rewrite E in Hy. eapply rlt_irrefl; eauto.
Qed.
Lemma keys_nd_perm : forall a b, Permutation a b -> keys_nd a -> keys_nd b.
Proof. intros a b H. apply Permutation_NoDup. apply Permutation_map; auto. Qed.

Section Emplace.
  Variables (k : rule) (v : labels) (f : labels -> labels).
  Lemma um_new : forall l, ~ In k (map fst l) -> um_emplace_mod k v f l = l ++ [(k, f v)].
  Proof.
    induction l as [|[k' v'] l IH]; intros H; cbn; auto. cbn in H. destruct (rule_eqb k' k) eqn:E; [apply rule_eqb_eq in E; subst; tauto|].
    rewrite IH; auto.
  Qed.
  Lemma um_old : forall a old b, ~ In k (map fst a) -> um_emplace_mod k v f (a ++ (k, old) :: b) = a ++ (k, f old) :: b.
  Proof.
    induction a as [|[k' v'] a IH]; intros old b H; cbn.
    - assert (E: rule_eqb k k = true) by (apply rule_eqb_eq; auto). rewrite E. auto.
    - cbn in H. destruct (rule_eqb k' k) eqn:E; [apply rule_eqb_eq in E; subst; tauto|]. rewrite IH; auto.
  Qed.
  Lemma vm_new : forall l, ~ In k (map fst l) -> Permutation (vm_emplace_mod k v f l) ((k, f v) :: l).
  Proof.
    induction l as [|[k' v'] l IH]; intros H; cbn; auto. cbn in H. destruct (rule_ltb k' k).
    - eapply perm_trans; [apply perm_skip, IH; auto|]. apply perm_swap.
    - destruct (rule_eqb k' k) eqn:E; [apply rule_eqb_eq in E; subst; tauto|]. auto.
  Qed.
  Lemma vm_old : forall a old b, rsorted (a ++ (k, old) :: b) -> vm_emplace_mod k v f (a ++ (k, old) :: b) = a ++ (k, f old) :: b.
  Proof.
    induction a as [|[k' v'] a IH]; intros old b H; cbn.
    - assert (E: rule_eqb k k = true) by (apply rule_eqb_eq; auto). rewrite E.
      destruct (rule_ltb k k) eqn:E2; auto. apply rule_ltb_spec in E2. destruct (rlt_irrefl _ E2).
    - cbn in H. apply rsorted_cons in H. destruct H as [H1 H2]. assert (L: rlt k' k) by (apply (H2 (k, old)), in_or_app; right; left; auto).
      apply rule_ltb_spec in L. rewrite L. rewrite IH; auto.
  Qed.
  Lemma um_vm : forall h s, Permutation h s -> rsorted s -> Permutation (um_emplace_mod k v f h) (vm_emplace_mod k v f s).
  Proof.
    intros h s HP HS. pose proof (rsorted_keys _ HS) as KS. pose proof (keys_nd_perm _ _ (Permutation_sym HP) KS) as KH.
    destruct (in_dec rule_eq_dec k (map fst s)) as [Hi|Hn].
    - apply in_map_iff in Hi. destruct Hi as [[k' old] [E Hi]]. cbn in E. subst k'. pose proof (Permutation_in _ (Permutation_sym HP) Hi) as Hh.
      apply in_split in Hi. destruct Hi as [a [b ->]]. apply in_split in Hh. destruct Hh as [a' [b' ->]].
      rewrite um_old, vm_old; auto.
      + apply Permutation_app_inv in HP. apply Permutation_elt. auto.
      + unfold keys_nd in KH. rewrite map_app in KH. cbn in KH. apply NoDup_remove_2 in KH. intros H. apply KH, in_or_app. auto.
    - assert (Hh: ~ In k (map fst h)) by (intros H; apply Hn; eapply Permutation_in; [apply Permutation_map, HP|auto]).
      rewrite um_new; auto. eapply perm_trans; [|apply Permutation_sym, vm_new; auto].
      eapply perm_trans; [apply Permutation_app_comm|]. cbn. auto.
  Qed.
End Emplace.

(** Related states and stores. *)
Definition hrel (h : hstate) (s : pstate) : Prop := Permutation (hs_rules h) (ps_rules s) /\ hs_pre h = ps_pre s.
Definition hrelP (H : hpda) (P : pda) : Prop := hp_nlab H = pd_nlab P /\ Forall2 hrel (hp_states H) (pd_states P).

Lemma Forall2_upd : forall A B (R : A -> B -> Prop) l l' i x y, Forall2 R l l' -> R x y -> Forall2 R (upd l i x) (upd l' i y).
Proof. intros A B R l l' i x y H Hx. revert i. induction H as [|a b l l' Ha H IH]; intros [|i]; cbn; constructor; auto. Qed.
Lemma Forall2_nth' : forall A B (R : A -> B -> Prop) l l' d d', Forall2 R l l' -> R d d' -> forall i, R (nth i l d) (nth i l' d').
Proof. intros A B R l l' d d' H Hd. induction H as [|a b l l' Ha H IH]; intros [|i]; cbn; auto. Qed.
Lemma Forall2_repeat : forall A B (R : A -> B -> Prop) x y n, R x y -> Forall2 R (repeat x n) (repeat y n).
Proof. induction n; intros; cbn; constructor; auto. Qed.

Lemma h_add_rel : forall H P u, hrelP H P -> wf_pda' P -> hrelP (h_add_urule H u) (add_urule P u).
Proof.
  intros H P u [HN HF] W. unfold h_add_urule, add_urule, h_add_rule_impl, add_rule_impl.
  set (m := Nat.max (u_from u) (r_to (u_rule u))).
  assert (L: hp_n H = pd_n P). { unfold hp_n, pd_n. clear -HF. induction HF; cbn; auto. }
  assert (E: hp_nlab (h_add_state H m) = pd_nlab (add_state P m) /\ Forall2 hrel (hp_states (h_add_state H m)) (pd_states (add_state P m))).
  { unfold h_add_state, add_state. rewrite L. destruct (Nat.leb (pd_n P) m); cbn; auto. split; auto. apply Forall2_app; auto. apply Forall2_repeat. split; auto. }
  destruct E as [E1 E2]. unfold hrelP. cbn. split; auto.
  assert (D: hrel empty_hstate empty_pstate) by (split; auto).
  pose proof (Forall2_nth' _ _ _ _ _ _ _ E2 D (u_from u)) as [N1 N2].
  match goal with |- Forall2 hrel (upd ?a _ _) (upd ?b _ _) => assert (F1: Forall2 hrel a b) end.
  { apply Forall2_upd; auto. split; cbn; auto. apply um_vm; auto. rewrite add_state_nth.
    destruct (Nat.lt_ge_cases (u_from u) (pd_n P)) as [Hl|Hl].
    - apply (wf_rules _ (wf_pda'_wf _ W) (u_from u)). apply nth_error_nth'. exact Hl.
    - rewrite nth_overflow; auto. constructor. }
  apply Forall2_upd; auto. pose proof (Forall2_nth' _ _ _ _ _ _ _ F1 D (r_to (u_rule u))) as [M1 M2]. split; cbn; auto. rewrite M2. auto.
Qed.

Lemma hbuild_rel : forall nlab us, Forall (wf_urule nlab) us -> hrelP (hbuild nlab us) (build nlab us).
Proof.
  intros nlab us. unfold hbuild, build.
  assert (G: forall us H P, hrelP H P -> wf_pda' P -> Forall (wf_urule (pd_nlab P)) us -> hrelP (fold_left h_add_urule us H) (fold_left add_urule us P)).
  { induction us0 as [|u us0 IH]; intros H P R W F; cbn; auto. inversion F; subst. pose proof (add_urule_wf _ _ W H2) as W'.
    apply IH; auto; [apply h_add_rel; auto|]. replace (pd_nlab (add_urule P u)) with (pd_nlab P); auto.
    symmetry. apply (build_gen [u] P W). constructor; auto. }
  intros F. apply G; auto; [split; cbn; auto; constructor|apply empty_wf].
Qed.

Lemma sorted_perm_eq : forall A (R : A -> A -> Prop), (forall x, ~ R x x) -> (forall x y z, R x y -> R y z -> R x z) ->
  forall l l', StronglySorted R l -> StronglySorted R l' -> Permutation l l' -> l = l'.
Proof.
  intros A R IR TR. induction l as [|x l IH]; intros l' H H' HP; [symmetry; apply Permutation_nil; auto|].
  destruct l' as [|y l']; [apply Permutation_sym, Permutation_nil in HP; discriminate|].
  inversion H; inversion H'; subst. rewrite Forall_forall in *.
  assert (x = y).
  { assert (Hx: In x (y :: l')) by (eapply Permutation_in; [exact HP|left; auto]). assert (Hy: In y (x :: l)) by (eapply Permutation_in; [apply Permutation_sym; exact HP|left; auto]).
    destruct Hx as [|Hx]; auto. destruct Hy as [|Hy]; auto. exfalso. apply (IR x). apply TR with y; auto. }
  subst y. f_equal. apply IH; auto. eapply Permutation_cons_inv; eauto.
Qed.

Lemma msorted_rsorted : forall l, msorted rule labels rule_ltb l -> rsorted l.
Proof.
  unfold msorted, rsorted. intros l H. induction H as [|x l H IH Hx]; constructor; auto. rewrite Forall_forall in *. intros y Hy. apply rule_ltb_spec. auto.
Qed.
Lemma rules_convert : forall h s, Permutation h s -> rsorted s -> vm_of_unordered rule_ltb h = s.
Proof.
  intros h s HP HS. destruct (vm_of_unordered_spec rule labels rule_ltb rule_eqb rule_total_order h) as [H1 H2].
  { eapply keys_nd_perm; [apply Permutation_sym; exact HP|apply rsorted_keys; auto]. }
  apply sorted_perm_eq with (R := fun a b => rlt (fst a) (fst b)); auto; try apply msorted_rsorted; auto.
  - intros x. apply rlt_irrefl. - intros x y z. apply rlt_trans. - eapply perm_trans; eauto.
Qed.

Theorem convert_build : forall nlab us perm, Forall (wf_urule nlab) us -> (forall i l, Permutation (perm i l) l) -> convert perm (hbuild nlab us) = build nlab us.
Proof.
  intros nlab us perm F HP. destruct (hbuild_rel nlab us F) as [E1 E2]. pose proof (wf_rules _ (build_wf _ _ F)) as WR.
  unfold convert. destruct (build nlab us) as [sts n]. cbn in *. subst n. f_equal.
  assert (WR' : Forall (fun s => rsorted (ps_rules s)) sts). { apply Forall_forall. intros s Hs. apply In_nth_error in Hs. destruct Hs as [p Hp]. eauto. }
  clear WR F. generalize 0. induction E2 as [|h s hs sts [R1 R2] H IH]; intros i; cbn; auto. inversion WR'; subst.
  rewrite IH; auto. f_equal. rewrite (rules_convert _ (ps_rules s)), R2; auto; [destruct s; auto|]. eapply perm_trans; eauto.
Qed.

(** * The product built from two NFAs *)
Lemma empty_accept_spec : forall addr N, compiled addr N -> exists b, empty_accept addr N = Some b /\ (b = true <-> nfa_lang N []).
Proof.
  intros addr N [HS HC]. unfold empty_accept. rewrite (asorted_is_sorted addr _ HS). eexists. split; [reflexivity|]. rewrite existsb_exists. split.
  - intros [i [H1 H2]]. exists i, i. ands; auto; [constructor|]. destruct (nth_error (n_states N) i) as [st|] eqn:E; [|discriminate]. exists st. auto.
  - intros [i [f [H1 [H2 [st [E1 E2]]]]]]. exists f. rewrite E1. split; auto. apply HC with i; auto.
    apply fe_keep_acc. exists st. auto.
Qed.

Lemma nth_error_ext : forall A (l l' : list A), (forall i, nth_error l i = nth_error l' i) -> l = l'.
Proof.
  induction l as [|x l IH]; intros [|y l'] H; auto; try (specialize (H 0); discriminate). pose proof (H 0) as H0. injection H0 as ->. f_equal. apply IH. intros i. apply (H (S i)).
Qed.
Lemma aut_of_nfa_acc : forall addr P ord N states A b, (forall i j, addr i = addr j -> i = j) -> nfa_wf N -> compiled addr N -> nfa_syms_lt N (pd_nlab P) ->
  (forall q l, Permutation (ord q l) l) -> ssorted states -> (forall s, In s states -> s < pd_n P) ->
  aut_of_nfa addr P ord N ne_sym states = Some A -> empty_accept addr N = Some b ->
  pd_n P <= a_size A /\ forall q, q < pd_n P -> nth_error (a_acc A) q = Some (b && memb q states).
Proof.
  intros addr P ord N states A b Hi W HC Hs Ho Hss Hst E Eb. destruct (aut_of_nfa_lang addr P ord N states) as [A' [E' [PO L]]]; auto.
  assert (A' = A) by congruence. subst A'. apply post_ok_pre_ok in PO. destruct PO as [PO _]. pose proof (po_n _ _ PO) as LN. split; auto. intros q Hq.
  destruct (empty_accept_spec addr N HC) as [b' [E1 E2]]. assert (b' = b) by congruence. subst b'.
  assert (Hl: q < length (a_acc A)) by (unfold a_size in LN; lia). destruct (nth_error_ex _ _ _ Hl) as [x Ex]. rewrite Ex. f_equal.
  assert (HF: aut_lang (pd_n P) A (q, []) <-> x = true).
  { unfold aut_lang, lang. cbn [fst snd]. split.
    - intros [_ [f [H1 H2]]]. inversion H1 as [q0|q0 l q1 w q2 He|q0 q1 w q2 He]; subst; [unfold aut_final in H2; congruence|].
      destruct (po_range _ _ PO _ _ _ He) as [_ [_ [y [K _]]]]. discriminate.
    - intros ->. split; auto. exists q. split; [constructor|]. unfold aut_final. auto. }
  rewrite L in HF. destruct x.
  - assert (K: true = true) by auto. apply HF in K. destruct K as [K1 [K2 _]]. apply E2 in K2. rewrite K2. symmetry. apply memb_In. auto.
  - destruct b; auto. cbn. destruct (memb q states) eqn:EM; auto. apply memb_In in EM. apply HF. ands; auto. apply E2; auto.
Qed.

Theorem new_inst_nfa_spec : forall addr P ord N1 N2 s1 s2, (forall i j, addr i = addr j -> i = j) -> (forall q l, Permutation (ord q l) l) ->
  nfa_wf N1 -> compiled addr N1 -> nfa_syms_lt N1 (pd_nlab P) -> ssorted s1 -> (forall s, In s s1 -> s < pd_n P) ->
  nfa_wf N2 -> compiled addr N2 -> nfa_syms_lt N2 (pd_nlab P) -> ssorted s2 -> (forall s, In s s2 -> s < pd_n P) ->
  exists A1 A2 I, aut_of_nfa addr P ord N1 ne_sym s1 = Some A1 /\ aut_of_nfa addr P ord N2 ne_sym s2 = Some A2 /\
    new_inst_nfa addr ord P N1 s1 N2 s2 = Some I /\ new_inst P ord A1 A2 = Some I.
Proof.
  intros addr P ord N1 N2 s1 s2 Hi Ho W1 C1 S1 H1 L1 W2 C2 S2 H2 L2.
  destruct (aut_of_nfa_lang addr P ord N1 s1) as [A1 [E1 _]]; auto. destruct (aut_of_nfa_lang addr P ord N2 s2) as [A2 [E2 _]]; auto.
  destruct (empty_accept_spec addr N1 C1) as [b1 [B1 _]]. destruct (empty_accept_spec addr N2 C2) as [b2 [B2 _]].
  destruct (aut_of_nfa_acc addr P ord N1 s1 A1 b1) as [Z1 Q1]; auto. destruct (aut_of_nfa_acc addr P ord N2 s2 A2 b2) as [Z2 Q2]; auto.
  assert (T1: is_sorted Nat.ltb s1 = true) by (apply is_sorted_spec, ssorted_le; auto). assert (T2: is_sorted Nat.ltb s2 = true) by (apply is_sorted_spec, ssorted_le; auto).
  assert (T3: is_sorted Nat.ltb (NfaQueryModel.set_inter s1 s2) = true) by (apply is_sorted_spec, ssorted_le, set_inter_ssorted; auto).
  unfold new_inst_nfa, aut_special. rewrite E1, E2, T1, T2, B1, B2, T3. cbn [obind andb]. unfold new_inst, pr_new.
  apply Nat.leb_le in Z1 as Z1', Z2 as Z2'. exists A1, A2. eexists. ands; try reflexivity. rewrite Z1', Z2'. cbn [obind andb]. symmetry.
  f_equal. f_equal. f_equal. f_equal. apply nth_error_ext. intros i. destruct (Nat.lt_ge_cases i (pd_n P)) as [Hl|Hl].
  - rewrite special_acc_nth; auto; [|apply set_inter_ssorted; auto|intros; lia].
    assert (G: forall (u v : list bool) m i x y, i < m -> nth_error u i = Some x -> nth_error v i = Some y ->
      nth_error (map (fun ab : bool * bool => fst ab && snd ab) (combine (firstn m u) (firstn m v))) i = Some (x && y)).
    { induction u as [|u0 u IH]; intros [|v0 v] [|m] [|j] x y Hj F1 F2; cbn in *; try lia; try discriminate. { congruence. } apply IH; auto. lia. }
    rewrite (G _ _ _ _ _ _ Hl (Q1 i Hl) (Q2 i Hl)). f_equal. cbn.
    assert (M: memb i (NfaQueryModel.set_inter s1 s2) = memb i s1 && memb i s2).
    { apply eq_true_iff_eq. rewrite andb_true_iff, !memb_In. apply MappingProof.set_inter_In; auto. }
    rewrite M. destruct b1, b2, (memb i s1), (memb i s2); auto.
  - rewrite !(proj2 (nth_error_None _ _)); auto.
    + rewrite map_length, combine_length, !firstn_length. lia.
    + rewrite special_acc_length. auto.
Qed.

(** * The search *)
Inductive freach (F : factory) : nat -> Prop :=
| fr_init : forall q, In q (fa_init F) -> freach F q
| fr_step : forall q r, freach F q -> In r (fa_rules F q) -> freach F (f_to r).

(** What the derived class has to guarantee for the rules of one state. *)
Definition wf_frule (F : factory) (nlab q : nat) (r : frule) : Prop :=
  f_from r = q /\ (f_pre r = fa_wild F \/ f_pre r < nlab) /\ ((f_op r = PUSH \/ f_op r = SWAP) -> f_opl r < nlab).

Section Search.
  Variables (F : factory) (no_opl nlab : nat) (U : list nat).
  Hypothesis FIN : forall q, freach F q -> In q U.
  Hypothesis WF : forall q r, freach F q -> In r (fa_rules F q) -> wf_frule F nlab q r.
  Hypothesis ND : NoDup (fa_init F).

  Definition f_urule (r : frule) : urule :=
    mk_urule (f_from r) (mk_rule (f_to r) (f_op r) (match f_op r with POP | NOOP => no_opl | _ => f_opl r end) (f_w r))
      (Nat.eqb (f_pre r) (fa_wild F)) (if Nat.eqb (f_pre r) (fa_wild F) then [] else [f_pre r]).
  Definition calls (D : list nat) : list urule := flat_map (fun q => map f_urule (fa_rules F q)) D.

  Lemma f_urule_wf : forall q r, wf_frule F nlab q r -> wf_urule nlab (f_urule r).
  Proof.
    intros q r [_ [H1 H2]]. unfold wf_urule, f_urule. cbn. ands.
    - destruct (Nat.eqb (f_pre r) (fa_wild F)); repeat constructor.
    - intros l Hl. destruct (Nat.eqb (f_pre r) (fa_wild F)) eqn:E; [destruct Hl|]. destruct Hl as [<-|[]]. apply Nat.eqb_neq in E. tauto.
    - intros [E|E]; rewrite E in *; apply H2; auto.
  Qed.

  Lemma h_add_nlab : forall H from r w pre, hp_nlab (h_add_rule_impl H from r w pre) = hp_nlab H.
  Proof. intros. unfold h_add_rule_impl, h_add_state. cbn. destruct (Nat.leb _ _); auto. Qed.
  Lemma hbuild_nlab : forall us, hp_nlab (hbuild nlab us) = nlab.
  Proof.
    intros us. unfold hbuild. assert (G: forall us H, hp_nlab (fold_left h_add_urule us H) = hp_nlab H); [|apply G].
    induction us0 as [|u us0 IH]; intros H; cbn; auto. rewrite IH. apply h_add_nlab.
  Qed.
  Lemma hbuild_snoc : forall us u, hbuild nlab (us ++ [u]) = h_add_urule (hbuild nlab us) u.
  Proof. intros. unfold hbuild. rewrite fold_left_app. auto. Qed.

  Lemma f_add_spec : forall us q r, wf_frule F nlab q r -> f_add F no_opl (hbuild nlab us) r = Some (hbuild nlab (us ++ [f_urule r])).
  Proof.
    intros us q r [_ [H1 H2]]. rewrite hbuild_snoc. unfold f_add, h_add_urule, f_urule. cbn. rewrite hbuild_nlab.
    assert (E: f_labelid no_opl nlab (f_op r) (f_opl r) = Some (match f_op r with POP | NOOP => no_opl | _ => f_opl r end)).
    { unfold f_labelid. destruct (f_op r); auto; rewrite (proj2 (Nat.ltb_lt _ _)); auto. }
    rewrite E. cbn. destruct (Nat.eqb (f_pre r) (fa_wild F)) eqn:EW; auto. apply Nat.eqb_neq in EW. rewrite (proj2 (Nat.ltb_lt _ _)); auto. tauto.
  Qed.

  (** Between two rounds: [D] are the states whose rules have been added, in order. *)
  Record finv (D : list nat) (st : fstate) : Prop := {
    fi_pda : fs_pda st = hbuild nlab (calls D);
    fi_seen : forall q, In q (fs_seen st) <-> In q D \/ In q (fs_wait st);
    fi_nd : NoDup (D ++ fs_wait st);
    fi_clos : forall q r, In q D -> In r (fa_rules F q) -> In (f_to r) (fs_seen st);
    fi_reach : forall q, In q (fs_seen st) -> freach F q;
    fi_init : forall q, In q (fa_init F) -> In q (fs_seen st);
    fi_acc : fs_acc st = filter (fa_acc F) D }.

  Lemma existsb_eqb : forall x l, existsb (Nat.eqb x) l = true <-> In x l.
  Proof. intros. rewrite existsb_exists. split; [intros [y [H1 H2]]; apply Nat.eqb_eq in H2; subst; auto|intros H; exists x; split; auto; apply Nat.eqb_refl]. Qed.

  Lemma f_rules_spec : forall from rs us st, freach F from -> (forall r, In r rs -> In r (fa_rules F from)) -> fs_pda st = hbuild nlab us ->
    (forall q, In q (fs_seen st) -> freach F q) ->
    exists st' new, ofold (f_rule F no_opl from) rs st = Some st' /\ fs_pda st' = hbuild nlab (us ++ map f_urule rs) /\
      fs_wait st' = new ++ fs_wait st /\ fs_seen st' = new ++ fs_seen st /\ fs_acc st' = fs_acc st /\ NoDup new /\
      (forall q, In q new -> ~ In q (fs_seen st) /\ freach F q) /\ (forall r, In r rs -> In (f_to r) (fs_seen st')).
  Proof.
    intros from rs us st HF. revert us st. induction rs as [|r rs IH]; intros us st HR HP HS.
    - exists st, []. cbn. rewrite app_nil_r. ands; auto; [constructor|intros ? []|intros ? []].
    - assert (W: wf_frule F nlab from r) by (apply WF; auto; apply HR; left; auto). pose proof W as [W1 _].
      assert (FR: freach F (f_to r)) by (eapply fr_step; eauto; apply HR; left; auto).
      cbn [ofold]. unfold f_rule at 1. rewrite W1, Nat.eqb_refl, HP, (f_add_spec us from r W). cbn [obind].
      destruct (existsb (Nat.eqb (f_to r)) (fs_seen st)) eqn:EX.
      + apply existsb_eqb in EX. edestruct (IH (us ++ [f_urule r]) (mk_fstate (hbuild nlab (us ++ [f_urule r])) (fs_wait st) (fs_seen st) (fs_acc st))) as (st' & new & E & K1 & K2 & K3 & K4 & K5 & K6 & K7); auto.
        { intros; apply HR; right; auto. }
        cbn in *. exists st', new. rewrite <- app_assoc in K1. ands; auto. intros r' [<-|Hr]; auto. rewrite K3. apply in_or_app. auto.
      + assert (NX: ~ In (f_to r) (fs_seen st)) by (rewrite <- existsb_eqb; congruence).
        edestruct (IH (us ++ [f_urule r]) (mk_fstate (hbuild nlab (us ++ [f_urule r])) (f_to r :: fs_wait st) (f_to r :: fs_seen st) (fs_acc st))) as (st' & new & E & K1 & K2 & K3 & K4 & K5 & K6 & K7); auto.
        { intros; apply HR; right; auto. } { intros q [<-|Hq]; auto. }
        cbn in *. exists st', (new ++ [f_to r]). rewrite <- app_assoc in K1. rewrite <- !app_assoc. cbn. ands; auto.
        * apply NoDup_app_intro; auto; [repeat constructor; auto|]. intros q Hq [<-|[]]. apply K6 in Hq. tauto.
        * intros q Hq. apply in_app_or in Hq. destruct Hq as [Hq|[<-|[]]]; auto. apply K6 in Hq. tauto.
        * intros r' [<-|Hr]; auto. rewrite K3. apply in_or_app. right. left; auto.
  Qed.

  Lemma f_round : forall D st from w, finv D st -> fs_wait st = from :: w ->
    exists st', ofold (f_rule F no_opl from) (fa_rules F from) (mk_fstate (fs_pda st) w (fs_seen st) (if fa_acc F from then fs_acc st ++ [from] else fs_acc st)) = Some st' /\
      finv (D ++ [from]) st'.
  Proof.
    intros D st from w [I1 I2 I3 I4 I5 I6 I7] Ew. assert (SF: In from (fs_seen st)) by (apply I2; right; rewrite Ew; left; auto).
    edestruct (f_rules_spec from (fa_rules F from) (calls D) (mk_fstate (fs_pda st) w (fs_seen st) (if fa_acc F from then fs_acc st ++ [from] else fs_acc st)))
      as (st' & new & E & K1 & K2 & K3 & K4 & K5 & K6 & K7); auto.
    exists st'. split; auto. cbn in *. rewrite Ew in I3, I2. constructor.
    - rewrite K1. f_equal. unfold calls. rewrite flat_map_app. cbn. rewrite app_nil_r. auto.
    - intros q. rewrite K3, K2, !in_app_iff, I2. cbn. tauto.
    - rewrite K2. apply (Permutation_NoDup (l := new ++ D ++ from :: w)).
      + change (from :: w) with ([from] ++ w). rewrite (app_assoc D), !app_assoc. apply Permutation_app_tail.
        rewrite <- app_assoc. apply Permutation_app_comm.
      + apply NoDup_app_intro; auto. intros q Hq Hq2. destruct (K6 q Hq) as [K _]. apply K. apply I2. apply in_app_or in Hq2. auto.
    - intros q r Hq Hr. apply in_app_or in Hq. destruct Hq as [Hq|[<-|[]]]; auto. rewrite K3. apply in_or_app. right. eauto.
    - intros q Hq. rewrite K3 in Hq. apply in_app_or in Hq. destruct Hq as [Hq|Hq]; auto. apply K6; auto.
    - intros q Hq. rewrite K3. apply in_or_app. auto.
    - rewrite K4, I7, filter_app. cbn. destruct (fa_acc F from); auto. rewrite app_nil_r. auto.
  Qed.

  Lemma f_loop_spec : forall fuel D st, finv D st ->
    (f_loop F no_opl fuel st = Some None \/ exists D' st', f_loop F no_opl fuel st = Some (Some st') /\ finv D' st' /\ fs_wait st' = []) /\
    (length U <= fuel + length D -> f_loop F no_opl fuel st <> Some None).
  Proof.
    induction fuel as [|fuel IH]; intros D st I; cbn [f_loop]; destruct (fs_wait st) as [|from w] eqn:Ew.
    - split; [right; exists D, st; auto|discriminate].
    - split; auto. intros L. exfalso. pose proof (fi_nd _ _ I) as N. rewrite Ew in N. assert (LE: length (D ++ from :: w) <= length U).
      { apply NoDup_incl_length; auto. intros q Hq. apply FIN. apply (fi_reach _ _ I), (fi_seen _ _ I). rewrite Ew. apply in_app_or in Hq. auto. }
      rewrite app_length in LE. cbn in LE. lia.
    - split; [right; exists D, st; auto|discriminate].
    - destruct (f_round D st from w I Ew) as [st' [E I']]. rewrite E. cbn [obind]. destruct (IH (D ++ [from]) st' I') as [H1 H2]. split; auto.
      intros L. apply H2. rewrite app_length. cbn. lia.
  Qed.

  (** The result of the search: every reachable state once, with all its rules. *)
  Theorem f_build_spec : answers (fun fuel => f_build F no_opl nlab fuel) (fun r => exists D, NoDup D /\ (forall q, In q D <-> freach F q) /\
    fst r = hbuild nlab (calls D) /\ snd r = sort_nat (filter (fa_acc F) D)).
  Proof.
    set (st0 := mk_fstate (mk_hpda [] nlab) (rev (fa_init F)) (fa_init F) []).
    assert (I0: finv [] st0).
    { constructor; cbn; auto.
      - intros q. rewrite <- in_rev. tauto.
      - apply NoDup_rev; auto.
      - intros q r [].
      - intros. apply fr_init; auto. }
    split.
    - intros fuel. unfold f_build. fold st0. destruct (f_loop_spec fuel [] st0 I0) as [[H|(D & st & H & I & EW)] _]; rewrite H; auto. right.
      eexists. split; [reflexivity|]. cbn. exists D. pose proof (fi_nd _ _ I) as N. rewrite EW, app_nil_r in N.
      assert (SD: forall q, In q (fs_seen st) <-> In q D) by (intros q; rewrite (fi_seen _ _ I), EW; cbn; tauto). ands; auto.
      + intros q. split; [intros Hq; apply (fi_reach _ _ I), SD; auto|]. intros H1. apply SD. induction H1 as [q Hq|q r H1 IH Hr]; [apply (fi_init _ _ I); auto|].
        apply (fi_clos _ _ I) with q; auto. apply SD; auto.
      + apply (fi_pda _ _ I). + rewrite (fi_acc _ _ I). auto.
    - exists (length U). intros fuel L. unfold f_build. fold st0. destruct (f_loop_spec fuel [] st0 I0) as [_ H]. cbn in H. rewrite Nat.add_0_r in H.
      destruct (f_loop F no_opl fuel st0) as [[st|]|] eqn:E; try discriminate. exfalso. apply H; auto.
  Qed.

  Lemma calls_In : forall D u, In u (calls D) <-> exists q r, In q D /\ In r (fa_rules F q) /\ u = f_urule r.
  Proof.
    intros. unfold calls. rewrite in_flat_map. split.
    - intros [q [H1 H2]]. apply in_map_iff in H2. destruct H2 as [r [<- H2]]. eauto.
    - intros (q & r & H1 & H2 & ->). exists q. split; auto. apply in_map; auto.
  Qed.
  Lemma calls_wf : forall D, (forall q, In q D -> freach F q) -> Forall (wf_urule nlab) (calls D).
  Proof. intros D HD. apply Forall_forall. intros u Hu. apply calls_In in Hu. destruct Hu as (q & r & H1 & H2 & ->). eapply f_urule_wf, WF; eauto. Qed.

  Lemma build_states : forall us u, In u us -> u_from u < pd_n (build nlab us) /\ r_to (u_rule u) < pd_n (build nlab us).
  Proof.
    intros us u. unfold build. assert (G: forall us P, pd_n P <= pd_n (fold_left add_urule us P) /\ (In u us -> u_from u < pd_n (fold_left add_urule us P) /\ r_to (u_rule u) < pd_n (fold_left add_urule us P))); [|apply G].
    induction us0 as [|v us0 IH]; intros P; cbn; [split; auto; intros []|]. destruct (IH (add_urule P v)) as [H1 H2]. unfold add_urule in *. pose proof (add_rule_n P (u_from v) (u_rule v) (u_wild v) (u_pre v)) as L.
    split; [lia|]. intros [->|H]; auto. lia.
  Qed.

  (** The rules added are those of the described system at the reachable states. *)
  Lemma calls_rules : forall D, (forall q, In q D <-> freach F q) -> forall sr, In (s_from sr) D -> (user_rules nlab (calls D) sr <-> factory_pds F nlab sr).
  Proof.
    intros D HD sr Hs. unfold user_rules, factory_pds. split.
    - intros (u & Hu & H1 & H2 & H3 & H4). apply calls_In in Hu. destruct Hu as (q & r & K1 & K2 & ->). cbn in *.
      destruct (WF q r) as [W1 _]; auto; [apply HD; auto|]. exists r. rewrite H1, W1. ands; auto.
      + rewrite H3. unfold sop_of. cbn. destruct (f_op r); auto.
      + destruct (Nat.eqb (f_pre r) (fa_wild F)); auto. destruct H4 as [H4|[]]; auto.
    - intros (r & H1 & H2 & H3 & H4). destruct (WF (s_from sr) r) as [W1 _]; auto; [apply HD; auto|]. exists (f_urule r). ands; auto.
      + apply calls_In. exists (s_from sr), r. auto.
      + rewrite H3. unfold sop_of. cbn. destruct (f_op r); auto.
      + cbn. destruct (Nat.eqb (f_pre r) (fa_wild F)); auto. left; auto.
  Qed.
  Lemma calls_from : forall D, (forall q, In q D <-> freach F q) -> forall sr, user_rules nlab (calls D) sr -> In (s_from sr) D /\ In (s_to sr) D.
  Proof.
    intros D HD sr (u & Hu & H1 & H2 & _). apply calls_In in Hu. destruct Hu as (q & r & K1 & K2 & ->). cbn in *.
    destruct (WF q r) as [W1 _]; auto; [apply HD; auto|]. rewrite H1, W1, H2. split; auto. apply HD. eapply fr_step; eauto. apply HD; auto.
  Qed.
  Lemma calls_reach : forall D, (forall q, In q D <-> freach F q) -> forall c c', In (fst c) D -> ((reach (user_rules nlab (calls D)) c c' <-> reach (factory_pds F nlab) c c') /\ (reach (factory_pds F nlab) c c' -> In (fst c') D)).
  Proof.
    intros D HD.
    assert (G1: forall c c', reach (user_rules nlab (calls D)) c c' -> reach (factory_pds F nlab) c c').
    { intros c c' H. induction H as [|c1 c2 c3 [r [Hr Hs]] H IH]; [constructor|]. apply reach_step with c2; auto. exists r. split; auto. apply (calls_rules D HD); auto. apply (calls_from D HD); auto. }
    assert (G2: forall c c', reach (factory_pds F nlab) c c' -> In (fst c) D -> reach (user_rules nlab (calls D)) c c' /\ In (fst c') D).
    { intros c c' H. induction H as [|c1 c2 c3 [r [Hr Hs]] H IH]; intros Hc; [split; auto; constructor|].
      inversion Hs; subst. cbn in *. apply (calls_rules D HD) in Hr; auto. destruct (calls_from D HD r Hr) as [_ K]. destruct (IH K) as [I1 I2]. split; auto.
      eapply reach_step; [|exact I1]. exists r. split; auto. }
    intros c c' Hc. split; [split; auto|]; intros H; destruct (G2 c c' H Hc); auto.
  Qed.
End Search.
