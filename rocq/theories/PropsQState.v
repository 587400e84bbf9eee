(** C71: the states that a query text names. *)
From Coq Require Import Ascii String List Arith Lia Bool NArith.
From Verif Require Import Base BaseFacts GrammarSpec QTextSpec ParserModel ParserProof QTextModel QTextProof PropsNfa PropsQText.
Import ListNotations.
Local Open Scope list_scope.

(** The number that a row of decimal digits stands for. *)
Fixpoint decimal (s : list ascii) : N :=
  match s with [] => 0 | c :: s' => N.of_nat (nat_of_ascii c - 48) * 10 ^ N.of_nat (List.length s') + decimal s' end%N.
(** The number at the beginning of a text: white space, at most one sign, digits, and a rest that does not begin with a digit. Minus
    counts down from 2^64; numbers from 2^64 on are not allowed. *)
Definition sign_value (sg : list ascii) (d v : N) : Prop :=
  ((sg = [] \/ sg = ["+"%char]) /\ v = d) \/ (sg = ["-"%char] /\ v = (2 ^ 64 - d) mod 2 ^ 64)%N.
Inductive leading_number : list ascii -> N -> Prop :=
| ln_intro : forall ws sg ds rest v, Forall space_char ws -> is_number ds -> match rest with c :: _ => ~ digit_char c | [] => True end ->
    (decimal ds < 2 ^ 64)%N -> sign_value sg (decimal ds) v -> leading_number (ws ++ sg ++ ds ++ rest) v.

Lemma digits_val_decimal : forall s, digits_val s = decimal s.
Proof.
  assert (G: forall s v, fold_left (fun v c => (v * 10 + N.of_nat (nat_of_ascii c - 48))%N) s v = (v * 10 ^ N.of_nat (List.length s) + decimal s)%N).
  { induction s as [|c s IH]; intros v; [cbn; lia|]. cbn [fold_left decimal List.length]. rewrite IH. rewrite Nat2N.inj_succ, N.pow_succ_r'. lia. }
  intros s. unfold digits_val. rewrite G. lia.
Qed.
Lemma while_app : forall (f : ascii -> bool) a b, Forall (fun c => f c = true) a -> match b with c :: _ => f c = false | [] => True end -> take_while f (a ++ b) = a /\ drop_while f (a ++ b) = b.
Proof.
  intros f a b H Hb. induction H as [|c a Hc H [IH1 IH2]]; cbn.
  - destruct b as [|c b]; cbn; auto. rewrite Hb. auto.
  - rewrite Hc, IH1, IH2. auto.
Qed.
Lemma digit_not_space : forall c, digit_char c -> is_space c = false.
Proof. intros c H. unfold digit_char, is_space in *. cbn zeta. destruct (Nat.eqb_spec (nat_of_ascii c) 32); [lia|]. destruct (Nat.leb_spec (nat_of_ascii c) 13); [lia|]. rewrite andb_false_r. auto. Qed.
Lemma drop_head : forall (f : ascii -> bool) s, match drop_while f s with c :: _ => f c = false | [] => True end.
Proof. induction s as [|c s IH]; cbn; auto. destruct (f c) eqn:E; auto. Qed.
Lemma neg_value : forall d, (d < 2 ^ 64)%N -> (if N.eqb d 0 then 0 else 2 ^ 64 - d)%N = ((2 ^ 64 - d) mod 2 ^ 64)%N.
Proof.
  intros d H. destruct (N.eqb_spec d 0) as [->|E]; [reflexivity|]. symmetry. apply N.mod_small. lia.
Qed.

Lemma stoul_spec : forall s v, stoul s = Some v <-> leading_number s v.
Proof.
  intros s v. split.
  - unfold stoul. destruct (take_drop is_space s) as [ES FS]. pose proof (drop_head is_space s) as HD. set (s0 := drop_while is_space s) in *.
    set (s1 := match s0 with c :: s1 => if c_is c "-" || c_is c "+" then s1 else s0 | [] => [] end).
    set (neg := match s0 with c :: _ => c_is c "-" | [] => false end). destruct (take_drop is_digit s1) as [E1 F1]. pose proof (drop_head is_digit s1) as H1.
    destruct (take_while is_digit s1) as [|d ds] eqn:ED; [discriminate|]. cbv zeta. rewrite digits_val_decimal. destruct (N.ltb_spec (decimal (d :: ds)) (2 ^ 64)) as [L|L]; [|discriminate].
    intros E. apply (f_equal (fun o => match o with Some x => x | None => 0%N end)) in E.
    assert (SG: exists sg, s0 = sg ++ s1 /\ sign_value sg (decimal (d :: ds)) v).
    { subst neg s1. destruct s0 as [|c s0']; [cbn in ED; discriminate|]. destruct (c_is c "-") eqn:Em; cbn [orb] in *.
      - apply Ascii.eqb_eq in Em. subst c. exists ["-"%char]. split; auto. right. split; auto. rewrite <- E. apply neg_value; auto.
      - destruct (c_is c "+") eqn:Ep.
        + apply Ascii.eqb_eq in Ep. subst c. exists ["+"%char]. split; auto. left. split; auto.
        + exists []. split; auto. left. auto. }
    destruct SG as (sg & ESG & SV). rewrite ES, ESG, E1. apply ln_intro; auto.
    + eapply Forall_impl; [|exact FS]. intros c Hc. apply is_space_spec. exact Hc.
    + split; [discriminate|]. eapply Forall_impl; [|exact F1]. intros c Hc. apply is_digit_spec. exact Hc.
    + destruct (drop_while is_digit s1) as [|c r]; auto. intros Hc. apply is_digit_spec in Hc. congruence.
  - intros H. destruct H as [ws sg ds rest v FS [ND FD] HR L SV]. unfold stoul.
    assert (FS': Forall (fun c => is_space c = true) ws) by (eapply Forall_impl; [|exact FS]; intros c Hc; apply is_space_spec; exact Hc).
    assert (FD': Forall (fun c => is_digit c = true) ds) by (eapply Forall_impl; [|exact FD]; intros c Hc; apply is_digit_spec; exact Hc).
    assert (HR': match rest with c :: _ => is_digit c = false | [] => True end).
    { destruct rest as [|c r]; auto. destruct (is_digit c) eqn:E; auto. apply is_digit_spec in E. contradiction. }
    destruct (while_app is_digit ds rest FD' HR') as [TD _].
    destruct ds as [|d ds]; [destruct ND; auto|]. pose proof (Forall_inv FD) as Hd.
    assert (H0: match sg ++ (d :: ds) ++ rest with c :: _ => is_space c = false | [] => True end).
    { destruct SV as [[[->| ->] _]|[-> _]]; cbn; auto. apply digit_not_space; auto. }
    destruct (while_app is_space ws (sg ++ (d :: ds) ++ rest) FS' H0) as [_ DS]. rewrite DS.
    destruct SV as [[[->| ->] ->]|[-> ->]].
    + assert (Dm: forall x, nat_of_ascii x < 48 -> c_is d x = false). { intros x Hx. destruct (c_is d x) eqn:E; auto. apply Ascii.eqb_eq in E. subst x. unfold digit_char in Hd. lia. }
      cbn [app]. rewrite !Dm by (vm_compute; lia). cbn [orb]. change (d :: ds ++ rest) with ((d :: ds) ++ rest). rewrite TD. cbv zeta. rewrite digits_val_decimal.
      rewrite (proj2 (N.ltb_lt _ _) L). auto.
    + change (["+"%char] ++ (d :: ds) ++ rest) with ("+"%char :: (d :: ds) ++ rest). unfold c_is. cbn [Ascii.eqb Bool.eqb orb]. rewrite TD. cbv zeta.
      rewrite digits_val_decimal, (proj2 (N.ltb_lt _ _) L). auto.
    + change (["-"%char] ++ (d :: ds) ++ rest) with ("-"%char :: (d :: ds) ++ rest). unfold c_is. cbn [Ascii.eqb Bool.eqb orb]. rewrite TD. cbv zeta.
      rewrite digits_val_decimal, (proj2 (N.ltb_lt _ _) L). f_equal. apply neg_value; auto.
Qed.
Lemma leading_unique : forall s v v', leading_number s v -> leading_number s v' -> v = v'.
Proof. intros s v v' H H'. apply stoul_spec in H, H'. congruence. Qed.

(** States that are numbers: what a text names, whether the state exists or not, and when std::stoul throws. *)
Theorem C71_state_numbers : forall n s,
  (forall i, sl_nums n s = SFound i <-> leading_number s (N.of_nat i) /\ i < n) /\
  (sl_nums n s = SUnknown <-> exists v, leading_number s v /\ (N.of_nat n <= v)%N) /\
  (sl_nums n s = SThrow <-> forall v, ~ leading_number s v).
Proof.
  intros n s. unfold sl_nums. destruct (stoul s) as [v|] eqn:E.
  - pose proof (proj1 (stoul_spec s v) E) as H. destruct (N.ltb_spec v (N.of_nat n)) as [L|L]; ands.
    + intros i. split.
      * intros K. injection K as <-. rewrite N2Nat.id. split; auto. lia.
      * intros [K1 K2]. rewrite (leading_unique _ _ _ H K1), Nat2N.id. auto.
    + split; [discriminate|]. intros (v' & K1 & K2). rewrite (leading_unique _ _ _ H K1) in L. lia.
    + split; [discriminate|]. intros K. destruct (K v H).
    + intros i. split; [discriminate|]. intros [K1 K2]. rewrite (leading_unique _ _ _ H K1) in L. lia.
    + split; eauto.
    + split; [discriminate|]. intros K. destruct (K v H).
  - assert (N: forall v, ~ leading_number s v) by (intros v H; apply stoul_spec in H; congruence). ands.
    + intros i. split; [discriminate|]. intros [K _]. destruct (N _ K).
    + split; [discriminate|]. intros (v & K & _). destruct (N _ K).
    + split; auto.
Qed.
Print Assumptions C71_state_numbers.
(** A plain number means itself. *)
Theorem C71_plain_number : forall n s, is_number s ->
  sl_nums n s = if (decimal s <? 2 ^ 64)%N then if (decimal s <? N.of_nat n)%N then SFound (N.to_nat (decimal s)) else SUnknown else SThrow.
Proof.
  intros n s H. unfold sl_nums. assert (G: stoul s = if (decimal s <? 2 ^ 64)%N then Some (decimal s) else None).
  { destruct (N.ltb_spec (decimal s) (2 ^ 64)) as [L|L].
    - apply stoul_spec. pose proof (ln_intro [] [] s [] (decimal s)) as K. cbn [app] in K. rewrite app_nil_r in K. apply K; auto. left. auto.
    - destruct (stoul s) as [v|] eqn:E; auto. exfalso. unfold stoul in E. destruct H as [H1 H2]. destruct s as [|d ds]; [contradiction|].
      pose proof (Forall_inv H2) as Hd. cbn [drop_while] in E. rewrite (digit_not_space d Hd) in E.
      assert (Dm: forall x, nat_of_ascii x < 48 -> c_is d x = false). { intros x Hx. destruct (c_is d x) eqn:K; auto. apply Ascii.eqb_eq in K. subst x. unfold digit_char in Hd. lia. }
      rewrite !Dm in E by (vm_compute; lia). cbn [orb] in E.
      destruct (while_app is_digit (d :: ds) []) as [T _]; [eapply Forall_impl; [|exact H2]; intros c Hc; apply is_digit_spec; exact Hc|auto|]. rewrite app_nil_r in T. rewrite T in E. cbv zeta in E. rewrite digits_val_decimal in E.
      destruct (N.ltb_spec (decimal (d :: ds)) (2 ^ 64)); [lia|discriminate]. }
  rewrite G. destruct (decimal s <? 2 ^ 64)%N; auto.
Qed.
Print Assumptions C71_plain_number.
(** States that are names: position in the map, never an exception. *)
Theorem C71_state_names : forall names s, NoDup names ->
  (forall i, sl_names names s = SFound i <-> nth_error names i = Some s) /\ (sl_names names s = SUnknown <-> ~ In s names) /\ sl_names names s <> SThrow.
Proof.
  intros names s ND. unfold sl_names. destruct (Nat.ltb_spec (tab_id names s) (List.length names)) as [L|L].
  - pose proof (proj1 (tab_id_lt names s) L) as H. ands; [|split; [discriminate|tauto]|discriminate].
    intros i. split; [|intros K; rewrite (tab_id_nth names i s ND K); auto]. intros K. injection K as <-. apply In_nth_error in H. destruct H as [j Hj]. rewrite (tab_id_nth names j s ND Hj). exact Hj.
  - assert (H: ~ In s names) by (intros H; apply tab_id_lt in H; lia). ands; [|split; auto|discriminate].
    intros i. split; [discriminate|]. intros K. destruct H. eapply nth_error_In; eauto.
Qed.
Print Assumptions C71_state_names.

Example C71_state_cases :
  sl_nums 20 (txt "12") = SFound 12 /\ sl_nums 20 (txt "  +007x") = SFound 7 /\ sl_nums 20 (txt "-18446744073709551604") = SFound 12 /\ sl_nums 20 (txt "-0") = SFound 0 /\
  sl_nums 20 (txt "20") = SUnknown /\ sl_nums 20 (txt "-1") = SUnknown /\ sl_nums 20 (txt "18446744073709551616") = SThrow /\ sl_nums 20 (txt "+-1") = SThrow /\ sl_nums 20 (txt "") = SThrow /\
  sl_names qt_names (txt "q") = SFound 1 /\ sl_names qt_names (txt "x") = SUnknown /\ decimal (txt "0120") = 120%N.
Proof. vm_compute. repeat split. Qed.
