(** C33: the two numbers that reduce returns, counted from the rules that were added. *)
From Coq Require Import List Arith Lia Bool ZArith.
From Verif Require Import Base BaseFacts Spec PdaModel PdaProof ContainersProof SolverModel ReducerModel NfaQueryProof ExHelp.
Import ListNotations.

(** The user gave state [p] the rule [r], for the label [l] on top. *)
Definition gave (us : list urule) (p : nat) (r : rule) : Prop := exists u, In u us /\ u_from u = p /\ u_rule u = r.
Definition gave_at (nlab : nat) (us : list urule) (p : nat) (r : rule) (l : nat) : Prop :=
  exists u, In u us /\ u_from u = p /\ u_rule u = r /\ (if u_wild u then l < nlab else In l (u_pre u)).
(** [k] things satisfy [Q]. *)
Definition counts {T} (Q : T -> Prop) (k : nat) : Prop := exists l, NoDup l /\ (forall x, In x l <-> Q x) /\ length l = k.

Definition stored_at (P : pda) (p : nat) (r : rule) (l : nat) : Prop := exists ls, In (r, ls) (rules_at P p) /\ matches (pd_nlab P) ls l.
Lemma build_stored : forall nlab us, Forall (wf_urule nlab) us -> forall p r l, stored_at (build nlab us) p r l <-> gave_at nlab us p r l.
Proof.
  intros nlab us. induction us as [|u us IH] using rev_ind; intros W p r l.
  - split; [intros [ls [H _]]; destruct p; destruct H|intros [u [[] _]]].
  - apply Forall_app in W. destruct W as [W1 W2]. inversion W2 as [|? ? U _]; subst. specialize (IH W1).
    assert (WP := wf_wf_pda' _ (build_wf _ _ W1)). rewrite build_snoc. set (P := build nlab us) in *. assert (EL: pd_nlab P = nlab) by apply build_nlab.
    assert (G: gave_at nlab (us ++ [u]) p r l <-> gave_at nlab us p r l \/ (u_from u = p /\ u_rule u = r /\ (if u_wild u then l < nlab else In l (u_pre u)))).
    { split.
      - intros [v [H K]]. apply in_app_or in H. destruct H as [H|[<-|[]]]; [left; exists v; auto|right; auto].
      - intros [[v [H K]]|H]; [exists v|exists u]; (split; [apply in_or_app; cbn; auto|auto]). }
    rewrite G, <- IH. clear G IH. unfold stored_at. rewrite add_urule_nlab, EL.
    pose proof (wf'_rules _ WP) as Hs. pose proof (wf'_labs _ WP) as Hl. unfold add_urule. rewrite add_rule_rules_at.
    destruct (Nat.eqb_spec (u_from u) p) as [E|E].
    + rewrite E. split.
      * intros [ls [Hin Hm]]. apply vm_emplace_mod_In in Hin; auto. destruct Hin as [[_ Hin]|[-> [[old [Hin ->]]|[_ ->]]]].
        -- left; exists ls; auto.
        -- apply merge_matches in Hm. destruct (wild old) eqn:Eo; [left; exists old; unfold matches; rewrite Eo; auto|]. destruct (u_wild u) eqn:Eu; [right; auto|].
           destruct Hm as [Hm|Hm]; [left; exists old; unfold matches; rewrite Eo; auto|right; auto].
        -- apply merge_matches in Hm. cbn in Hm. right. destruct (u_wild u); auto. ands; auto. tauto.
      * intros [[ls [Hin Hm]]|[_ [H2 H3]]].
        -- destruct (rule_eq_dec r (u_rule u)) as [->|Hne].
           ++ exists (merge ls (u_wild u) (u_pre u)). split; [apply vm_emplace_mod_In; auto; right; split; auto; left; exists ls; auto|].
              apply merge_matches. pose proof (Hl _ _ _ Hin) as HL. rewrite EL in HL. pose proof (matches_lt _ _ _ HL Hm). unfold matches in Hm. destruct (wild ls); auto. destruct (u_wild u); auto.
           ++ exists ls. split; auto. apply vm_emplace_mod_In; auto.
        -- subst r. destruct (in_dec rule_eq_dec (u_rule u) (map fst (rules_at P p))) as [Hi|Hi].
           ++ apply in_map_iff in Hi. destruct Hi as [[r0 ls0] [E0 Hi]]. cbn in E0; subst r0. exists (merge ls0 (u_wild u) (u_pre u)). split; [apply vm_emplace_mod_In; auto; right; split; auto; left; exists ls0; auto|].
              apply merge_matches. assert (L: l < nlab). { destruct U as [_ [U2 _]]. destruct (u_wild u); auto. } destruct (wild ls0), (u_wild u); auto.
           ++ exists (merge no_labels (u_wild u) (u_pre u)). split; [apply vm_emplace_mod_In; auto; right; split; auto; right; split; auto; intros old Ho; apply Hi; apply in_map_iff; exists (u_rule u, old); auto|].
              apply merge_matches. cbn. destruct (u_wild u); auto.
    + split; [auto|]. intros [H|[H _]]; [auto|contradiction].
Qed.

(** Counting in lists of lists. *)
Lemma NoDup_flat : forall (S T : Type) (f : S -> list T) l, NoDup l -> (forall x, In x l -> NoDup (f x)) -> (forall x y z, In x l -> In y l -> In z (f x) -> In z (f y) -> x = y) -> NoDup (flat_map f l).
Proof.
  intros S T f l ND H K. induction l as [|x l IH]; cbn; [constructor|]. inversion ND as [|? ? N1 N2]; subst. apply NoDup_app_intro.
  - apply H; left; auto.
  - apply IH; auto; [intros; apply H; right; auto|intros a b z Ha Hb; apply K; right; auto].
  - intros z Hz Hz'. apply in_flat_map in Hz'. destruct Hz' as [y [Hy Hz']]. assert (x = y) by (apply (K x y z); auto; [left; auto|right; auto]). subst. contradiction.
Qed.
Lemma key_eq : forall (l : list (rule * labels)) r a b, NoDup (map fst l) -> In (r, a) l -> In (r, b) l -> a = b.
Proof.
  induction l as [|x l IH]; intros r a b N Ha Hb; [destruct Ha|]. cbn in N. inversion N as [|? ? N1 N2]; subst. destruct Ha as [->|Ha], Hb as [Hb|Hb].
  - congruence.
  - exfalso. apply N1. apply in_map_iff. exists (r, b). auto.
  - subst x. exfalso. apply N1. apply in_map_iff. exists (r, a). auto.
  - eapply IH; eauto.
Qed.
Definition lab_list (P : pda) (ls : labels) : list nat := if wild ls then seq 0 (pd_nlab P) else labs ls.
Definition ends_of (P : pda) (term p : nat) : list (nat * rule) := flat_map (fun x => if Nat.eqb (r_to (fst x)) term then [(p, fst x)] else []) (rules_at P p).
Definition items_of (P : pda) (term p : nat) : list (nat * rule * nat) :=
  flat_map (fun x => if Nat.eqb (r_to (fst x)) term then [] else map (fun l => (p, fst x, l)) (lab_list P (snd x))) (rules_at P p).
Lemma sum_app : forall a b, list_sum (a ++ b) = list_sum a + list_sum b.
Proof. exact list_sum_app. Qed.
Lemma size_state : forall P term p, list_sum (map (rule_size P term) (rules_at P p)) = length (ends_of P term p) + length (items_of P term p).
Proof.
  intros P term p. unfold ends_of, items_of. induction (rules_at P p) as [|x l IH]; [reflexivity|]. cbn [flat_map map]. change (list_sum (rule_size P term x :: map (rule_size P term) l)) with (rule_size P term x + list_sum (map (rule_size P term) l)). rewrite IH, !app_length. unfold rule_size, labels_empty, lab_list.
  destruct (Nat.eqb (r_to (fst x)) term); cbn [length]; [idtac|rewrite map_length; destruct (wild (snd x)); cbn [negb andb]; [rewrite seq_length|destruct (labs (snd x)); cbn [length]]]; try lia.
Qed.
Lemma tl_rules : forall P, concat (map ps_rules (tl (pd_states P))) = flat_map (rules_at P) (seq 1 (pd_n P - 1)).
Proof.
  intros P. unfold rules_at, pd_n. destruct (pd_states P) as [|s0 sts]; auto. cbn [tl length]. replace (S (length sts) - 1) with (length sts) by lia. rewrite <- seq_shift, flat_map_concat_map, map_map. cbn [nth].
  f_equal. induction sts as [|s sts IH]; cbn [map length seq]; auto. cbn [nth]. f_equal. rewrite <- seq_shift, map_map. exact IH.
Qed.
Lemma size_all : forall P term ps, list_sum (map (rule_size P term) (flat_map (rules_at P) ps)) = length (flat_map (ends_of P term) ps) + length (flat_map (items_of P term) ps).
Proof. intros P term ps. induction ps as [|p ps IH]; cbn; auto. rewrite map_app, sum_app, size_state, IH, !app_length. lia. Qed.

(** The rules stored in a PDA. *)
Lemma stored_count : forall P init term, wf_pda' P -> init < pd_n P -> exists a b c, pda_size P init term = Some (1 + a + b + c) /\
  counts (fun r => exists ls, In (r, ls) (rules_at P init)) a /\
  counts (fun x => fst x <> 0 /\ r_to (snd x) = term /\ exists ls, In (snd x, ls) (rules_at P (fst x))) b /\
  counts (fun x => fst (fst x) <> 0 /\ r_to (snd (fst x)) <> term /\ stored_at P (fst (fst x)) (snd (fst x)) (snd x)) c.
Proof.
  intros P init term W L. unfold pda_size. destruct (nth_error (pd_states P) init) as [x|] eqn:E; [|apply nth_error_None in E; unfold pd_n in L; lia]. cbn [obind].
  rewrite tl_rules, size_all, (nth_error_rules_at _ _ _ E). exists (length (rules_at P init)), (length (flat_map (ends_of P term) (seq 1 (pd_n P - 1)))), (length (flat_map (items_of P term) (seq 1 (pd_n P - 1)))). split; [f_equal; lia|].
  assert (KN: forall p, NoDup (map fst (rules_at P p))) by (intros p; apply rsorted_nodup, (wf'_rules _ W)).
  assert (RN: forall p, NoDup (rules_at P p)) by (intros p; eapply NoDup_map_inv; apply KN).
  assert (OUT: forall p r ls, In (r, ls) (rules_at P p) -> p < pd_n P).
  { intros p r ls H. unfold rules_at in H. destruct (le_lt_dec (pd_n P) p) as [G|G]; auto. rewrite nth_overflow in H; [destruct H|exact G]. }
  split; [|split].
  - exists (map fst (rules_at P init)). split; [apply KN|]. split; [|apply map_length]. intros r. rewrite in_map_iff. split; [intros [[r' ls] [<- H]]; eauto|intros [ls H]; exists (r, ls); auto].
  - exists (flat_map (ends_of P term) (seq 1 (pd_n P - 1))). split; [|split; [|reflexivity]].
    + apply NoDup_flat; [apply seq_NoDup| |].
      * intros p _. apply NoDup_flat; [apply RN| |].
        -- intros y _. destruct (Nat.eqb _ _); [repeat constructor; intros []|constructor].
        -- intros [r1 l1] [r2 l2] z H1 H2 Z1 Z2. cbn [fst] in *. destruct (Nat.eqb (r_to r1) term); [|destruct Z1]. destruct (Nat.eqb (r_to r2) term); [|destruct Z2]. destruct Z1 as [<-|[]], Z2 as [Z|[]]. injection Z as ->. f_equal. eapply key_eq; eauto.
      * intros p q z _ _ H1 H2. apply in_flat_map in H1, H2. destruct H1 as [y1 [_ H1]], H2 as [y2 [_ H2]]. destruct (Nat.eqb _ _) in H1; [|destruct H1]. destruct (Nat.eqb _ _) in H2; [|destruct H2]. destruct H1 as [<-|[]], H2 as [Z|[]]. congruence.
    + intros [p r]. cbn [fst snd]. rewrite in_flat_map. split.
      * intros [q [Hq H]]. apply in_seq in Hq. apply in_flat_map in H. destruct H as [[r' ls] [H1 H2]]. cbn [fst] in H2. destruct (Nat.eqb_spec (r_to r') term); [|destruct H2]. destruct H2 as [Z|[]]. injection Z as -> ->. ands; eauto. lia.
      * intros [N [T [ls H]]]. exists p. split; [apply in_seq; specialize (OUT _ _ _ H); lia|]. apply in_flat_map. exists (r, ls). split; auto. cbn [fst]. rewrite T, Nat.eqb_refl. left; auto.
  - exists (flat_map (items_of P term) (seq 1 (pd_n P - 1))). split; [|split; [|reflexivity]].
    + apply NoDup_flat; [apply seq_NoDup| |].
      * intros p _. apply NoDup_flat; [apply RN| |].
        -- intros [r ls] H. cbn [fst snd]. destruct (Nat.eqb _ _); [constructor|]. apply FinFun.Injective_map_NoDup; [intros u v Z; congruence|]. unfold lab_list. destruct (wild ls); [apply seq_NoDup|apply ssorted_NoDup, (wf'_labs _ W _ _ _ H)].
        -- intros [r1 l1] [r2 l2] z H1 H2 Z1 Z2. cbn [fst snd] in *. destruct (Nat.eqb (r_to r1) term); [destruct Z1|]. destruct (Nat.eqb (r_to r2) term); [destruct Z2|]. apply in_map_iff in Z1, Z2. destruct Z1 as [k1 [<- _]], Z2 as [k2 [Z _]]. injection Z as -> _. f_equal. eapply key_eq; eauto.
      * intros p q z _ _ H1 H2. apply in_flat_map in H1, H2. destruct H1 as [y1 [_ H1]], H2 as [y2 [_ H2]]. destruct (Nat.eqb _ _) in H1; [destruct H1|]. destruct (Nat.eqb _ _) in H2; [destruct H2|]. apply in_map_iff in H1, H2. destruct H1 as [k1 [<- _]], H2 as [k2 [Z _]]. congruence.
    + intros [[p r] l]. cbn [fst snd]. rewrite in_flat_map. unfold stored_at, matches. split.
      * intros [q [Hq H]]. apply in_seq in Hq. apply in_flat_map in H. destruct H as [[r' ls] [H1 H2]]. cbn [fst snd] in H2. destruct (Nat.eqb_spec (r_to r') term); [destruct H2|]. apply in_map_iff in H2. destruct H2 as [k [Z Hk]]. injection Z as -> -> ->. ands; auto; [lia|].
        exists ls. split; auto. unfold lab_list in Hk. destruct (wild ls); auto. apply in_seq in Hk. lia.
      * intros [N [T [ls [H Hm]]]]. exists p. split; [apply in_seq; specialize (OUT _ _ _ H); lia|]. apply in_flat_map. exists (r, ls). split; auto. cbn [fst snd]. destruct (Nat.eqb_spec (r_to r) term); [contradiction|]. apply in_map_iff. exists l. split; auto.
        unfold lab_list. destruct (wild ls); auto. apply in_seq. lia.
Qed.
Lemma counts_iff : forall (T : Type) (Q Q' : T -> Prop) k, (forall x, Q x <-> Q' x) -> counts Q k -> counts Q' k.
Proof. intros T Q Q' k H [l [H1 [H2 H3]]]. exists l. ands; auto. intros x. rewrite H2. apply H. Qed.

(** The first number: one, the rules of the initial state, and for the states but 0 the rules to the terminal state and the
    pairs of another rule and a label (the rules of the initial state are counted again, those of state 0 are not). *)
Theorem C33_count : forall nlab us init term, Forall (wf_urule nlab) us -> init < pd_n (build nlab us) ->
  exists a b c, pda_size (build nlab us) init term = Some (1 + a + b + c) /\ counts (gave us init) a /\
    counts (fun x => fst x <> 0 /\ r_to (snd x) = term /\ gave us (fst x) (snd x)) b /\
    counts (fun x => fst (fst x) <> 0 /\ r_to (snd (fst x)) <> term /\ gave_at nlab us (fst (fst x)) (snd (fst x)) (snd x)) c.
Proof.
  intros nlab us init term W L. destruct (stored_count (build nlab us) init term (wf_wf_pda' _ (build_wf _ _ W)) L) as [a [b [c [E [A [B C]]]]]]. exists a, b, c. split; [exact E|].
  split; [|split].
  - eapply counts_iff; [|exact A]. intros r. apply build_keys; auto.
  - eapply counts_iff; [|exact B]. intros [p r]. cbn [fst snd]. rewrite build_keys by auto. reflexivity.
  - eapply counts_iff; [|exact C]. intros [[p r] l]. cbn [fst snd]. rewrite build_stored by auto. reflexivity.
Qed.
Print Assumptions C33_count.
(** The rules of C33_example: 1 + 2 + 3 + 7. *)
Definition cnt_rules : list urule :=
  [mk_urule 1 (mk_rule 2 PUSH 1 3) false [0]; mk_urule 2 (mk_rule 5 POP 0 1) false [1; 2]; mk_urule 5 (mk_rule 0 SWAP 2 0) true [];
   mk_urule 1 (mk_rule 3 PUSH 2 0) true []; mk_urule 4 (mk_rule 0 POP 0 0) false [1]; mk_urule 2 (mk_rule 6 SWAP 0 0) false [1]; mk_urule 6 (mk_rule 0 SWAP 2 0) false [2]].
Example C33_count_example : Forall (wf_urule 3) cnt_rules /\ 1 < pd_n (build 3 cnt_rules) /\ pda_size (build 3 cnt_rules) 1 0 = Some (1 + 2 + 3 + 7) /\
  let P := build 3 cnt_rules in length (rules_at P 1) = 2 /\ length (flat_map (ends_of P 0) (seq 1 (pd_n P - 1))) = 3 /\ length (flat_map (items_of P 0) (seq 1 (pd_n P - 1))) = 7.
Proof. split; [apply wf_urulesb_ok; reflexivity|]. split; [apply Nat.ltb_lt; reflexivity|]. split; [reflexivity|]. cbn zeta. ands; reflexivity. Qed.
