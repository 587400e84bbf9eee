(** The text reader for queries: the grammar is recognised exactly, and the automaton accepts what the text describes. *)
From Coq Require Import List Arith Lia Bool Ascii NArith ZArith Permutation.
From Verif Require Import Base BaseFacts Spec SpecFacts RegexSpec GrammarSpec QTextSpec PdaModel PdaProof AutModel AutProof PreStarLang PostStarLang NfaModel NfaProof
  RegexProof ParserModel ParserProof ConstructProof AtomModel AtomProof QTextModel.
Import ListNotations.

(** ** Code points *)
Lemma byte_N : forall c, nat_of_ascii c = N.to_nat (N_of_ascii c).
Proof. reflexivity. Qed.
Lemma byte_lt : forall c, (N_of_ascii c < 256)%N.
Proof. intros c. destruct c as [[] [] [] [] [] [] [] []]; reflexivity. Qed.
Ltac bcase := match goal with
  | H : context [if ?b then _ else _] |- _ => let E := fresh "E" in destruct b eqn:E
  | |- context [if ?b then _ else _] => let E := fresh "E" in destruct b eqn:E
  end.
Ltac bnorm := repeat match goal with
  | E : negb _ = true |- _ => apply negb_true_iff in E
  | E : negb _ = false |- _ => apply negb_false_iff in E
  | E : (_ && _) = true |- _ => apply andb_true_iff in E; destruct E
  | E : (_ && _) = false |- _ => apply andb_false_iff in E
  | E : (_ || _) = true |- _ => apply orb_true_iff in E
  | E : (_ || _) = false |- _ => apply orb_false_iff in E; destruct E
  | E : Nat.leb _ _ = true |- _ => apply Nat.leb_le in E
  | E : Nat.leb _ _ = false |- _ => apply Nat.leb_gt in E
  | E : Nat.ltb _ _ = true |- _ => apply Nat.ltb_lt in E
  | E : Nat.ltb _ _ = false |- _ => apply Nat.ltb_ge in E
  | E : Nat.eqb _ _ = true |- _ => apply Nat.eqb_eq in E
  | E : Nat.eqb _ _ = false |- _ => apply Nat.eqb_neq in E
  | E : N.ltb _ _ = true |- _ => apply N.ltb_lt in E
  | E : N.ltb _ _ = false |- _ => apply N.ltb_ge in E
  | E : Nat.leb _ _ = true \/ _ |- _ => rewrite Nat.leb_le in E
  | E : Nat.leb _ _ = false \/ _ |- _ => rewrite Nat.leb_gt in E
  | E : _ \/ Nat.leb _ _ = false |- _ => rewrite Nat.leb_gt in E
  | E : _ \/ Nat.eqb _ _ = true |- _ => rewrite Nat.eqb_eq in E
  | E : context [(_ && _) = true] |- _ => rewrite andb_true_iff, !Nat.leb_le in E
  | E : context [(_ || _) = true] |- _ => rewrite orb_true_iff, ?Nat.eqb_eq in E
  end.
Ltac nlia := zify; Z.to_euclidean_division_equations; lia.

Lemma is_cont_spec : forall c, is_cont c = true <-> (128 <= N_of_ascii c /\ N_of_ascii c <= 191)%N.
Proof. intros c. unfold is_cont. rewrite andb_true_iff, !Nat.leb_le, byte_N. lia. Qed.
Lemma is_cont_false : forall c, is_cont c = false -> (N_of_ascii c < 128 \/ 191 < N_of_ascii c)%N.
Proof. intros c H. unfold is_cont in H. apply andb_false_iff in H. rewrite !Nat.leb_gt, byte_N in H. lia. Qed.

Lemma utf8_len_sound : forall s k, utf8_len s = Some k -> code_point (firstn k s) /\ 1 <= k /\ k <= length s.
Proof.
  intros s k H. destruct s as [|c0 s]; [discriminate|]. cbn [utf8_len] in H. pose proof (byte_lt c0) as B0.
  destruct (Nat.ltb (nat_of_ascii c0) 128) eqn:E0.
  { destruct (Nat.leb 32 (nat_of_ascii c0)) eqn:E1; [|discriminate]. injection H as <-. bnorm. cbn [firstn length]. ands; [|lia|lia].
    exists (N_of_ascii c0). rewrite byte_N in *. ands; try lia. unfold utf8. rewrite (proj2 (N.ltb_lt _ _)); [reflexivity|lia]. }
  destruct s as [|c1 s]; [discriminate|]. pose proof (byte_lt c1) as B1. destruct (is_cont c1) eqn:C1; [|discriminate]. cbn [negb] in H. apply is_cont_spec in C1.
  destruct (Nat.leb 194 (nat_of_ascii c0) && Nat.leb (nat_of_ascii c0) 223) eqn:E1.
  { injection H as <-. bnorm. cbn [firstn length]. ands; [|lia|lia]. rewrite byte_N in *. exists ((N_of_ascii c0 - 192) * 64 + (N_of_ascii c1 - 128))%N. ands; try lia.
    unfold utf8. rewrite (proj2 (N.ltb_ge _ _)); [|lia]. rewrite (proj2 (N.ltb_lt _ _)); [|lia]. cbn [map]. repeat f_equal; nlia. }
  destruct s as [|c2 s]; [discriminate|]. pose proof (byte_lt c2) as B2. destruct (is_cont c2) eqn:C2; [|discriminate]. cbn [negb] in H. apply is_cont_spec in C2.
  assert (T3: (224 <= N_of_ascii c0 <= 239)%N -> (N_of_ascii c0 = 224 -> 160 <= N_of_ascii c1)%N -> (N_of_ascii c0 = 237 -> N_of_ascii c1 < 160)%N -> k = 3 ->
    code_point (firstn k (c0 :: c1 :: c2 :: s)) /\ 1 <= k /\ k <= length (c0 :: c1 :: c2 :: s)).
  { intros J1 J2 J3 ->. cbn [firstn length]. ands; [|lia|lia]. exists ((N_of_ascii c0 - 224) * 4096 + (N_of_ascii c1 - 128) * 64 + (N_of_ascii c2 - 128))%N. ands; try lia.
    unfold utf8. rewrite (proj2 (N.ltb_ge _ _)); [|lia]. rewrite (proj2 (N.ltb_ge _ _)); [|lia]. rewrite (proj2 (N.ltb_lt _ _)); [|lia]. cbn [map].
    repeat f_equal; nlia. }
  destruct ((Nat.leb 225 (nat_of_ascii c0) && Nat.leb (nat_of_ascii c0) 236) || Nat.eqb (nat_of_ascii c0) 238 || Nat.eqb (nat_of_ascii c0) 239) eqn:E2.
  { injection H as <-. rewrite !orb_true_iff, andb_true_iff, !Nat.leb_le, !Nat.eqb_eq, byte_N in E2. apply T3; auto; lia. }
  rewrite !orb_false_iff, andb_false_iff, !Nat.leb_gt, !Nat.eqb_neq in E2.
  destruct (Nat.eqb (nat_of_ascii c0) 224) eqn:E3.
  { destruct (Nat.leb 160 (nat_of_ascii c1)) eqn:E4; [|discriminate]. injection H as <-. bnorm. rewrite byte_N in *. apply T3; auto; lia. }
  destruct (Nat.eqb (nat_of_ascii c0) 237) eqn:E4.
  { destruct (Nat.ltb (nat_of_ascii c1) 160) eqn:E5; [|discriminate]. injection H as <-. bnorm. rewrite byte_N in *. apply T3; auto; lia. }
  destruct s as [|c3 s]; [discriminate|]. pose proof (byte_lt c3) as B3. destruct (is_cont c3) eqn:C3; [|discriminate]. cbn [negb] in H. apply is_cont_spec in C3.
  assert (T4: (240 <= N_of_ascii c0 <= 244)%N -> (N_of_ascii c0 = 240 -> 144 <= N_of_ascii c1)%N -> (N_of_ascii c0 = 244 -> N_of_ascii c1 < 144)%N -> k = 4 ->
    code_point (firstn k (c0 :: c1 :: c2 :: c3 :: s)) /\ 1 <= k /\ k <= length (c0 :: c1 :: c2 :: c3 :: s)).
  { intros J1 J2 J3 ->. cbn [firstn length]. ands; [|lia|lia].
    exists ((N_of_ascii c0 - 240) * 262144 + (N_of_ascii c1 - 128) * 4096 + (N_of_ascii c2 - 128) * 64 + (N_of_ascii c3 - 128))%N. ands; try lia.
    unfold utf8. rewrite (proj2 (N.ltb_ge _ _)); [|lia]. rewrite (proj2 (N.ltb_ge _ _)); [|lia]. rewrite (proj2 (N.ltb_ge _ _)); [|lia]. cbn [map].
    repeat f_equal; nlia. }
  destruct (Nat.leb 241 (nat_of_ascii c0) && Nat.leb (nat_of_ascii c0) 243) eqn:E5.
  { injection H as <-. bnorm. rewrite byte_N in *. apply T4; auto; lia. }
  destruct (Nat.eqb (nat_of_ascii c0) 240) eqn:E6.
  { destruct (Nat.leb 144 (nat_of_ascii c1)) eqn:E7; [|discriminate]. injection H as <-. bnorm. rewrite byte_N in *. apply T4; auto; lia. }
  destruct (Nat.eqb (nat_of_ascii c0) 244) eqn:E7; [|discriminate].
  destruct (Nat.ltb (nat_of_ascii c1) 144) eqn:E8; [|discriminate]. injection H as <-. bnorm. rewrite byte_N in *. apply T4; auto; lia.
Qed.

Lemma cons_inj : forall A (x y : A) l l', x :: l = y :: l' -> x = y /\ l = l'.
Proof. intros A x y l l' H. split; congruence. Qed.
Lemma utf8_len_complete : forall u t, code_point u -> utf8_len (u ++ t) = Some (length u) /\ u <> [].
Proof.
  intros u t [v [[V1 [V2 V3]] Hu]]. unfold utf8 in Hu.
  assert (LB: forall a c, (a <= N_of_ascii c)%N -> Nat.leb (N.to_nat a) (nat_of_ascii c) = true) by (intros; apply Nat.leb_le; rewrite byte_N; lia).
  destruct (v <? 0x80)%N eqn:E1; [|destruct (v <? 0x800)%N eqn:E2; [|destruct (v <? 0x10000)%N eqn:E3]];
    repeat (destruct u as [|? u]; cbn [map] in Hu; try discriminate); clear LB; repeat (let Q := fresh "Q" in apply cons_inj in Hu; destruct Hu as [Q Hu]); clear Hu; bnorm; (split; [|discriminate]); cbn [app length utf8_len].
  - rewrite byte_N, (proj2 (Nat.ltb_lt _ _)), (proj2 (Nat.leb_le _ _)); auto; lia.
  - assert (K1: is_cont a0 = true) by (apply is_cont_spec; nlia). rewrite K1. cbn [negb].
    rewrite (proj2 (Nat.ltb_ge _ _)); [|rewrite byte_N; nlia].
    rewrite (proj2 (Nat.leb_le _ _)); [|rewrite byte_N; nlia]. rewrite (proj2 (Nat.leb_le _ _)); [|rewrite byte_N; nlia]. auto.
  - assert (K1: is_cont a0 = true) by (apply is_cont_spec; nlia). rewrite K1. cbn [negb].
    assert (K2: is_cont a1 = true) by (apply is_cont_spec; nlia). rewrite K2. cbn [negb].
    assert (R: (224 <= N_of_ascii a <= 239)%N) by (nlia).
    assert (R1: (N_of_ascii a = 224 -> 160 <= N_of_ascii a0)%N) by (nlia).
    assert (R2: (N_of_ascii a = 237 -> N_of_ascii a0 < 160)%N) by (nlia).
    clear - R R1 R2. rewrite !byte_N. repeat (bcase; bnorm); auto; try discriminate; lia.
  - assert (K1: is_cont a0 = true) by (apply is_cont_spec; nlia). rewrite K1. cbn [negb].
    assert (K2: is_cont a1 = true) by (apply is_cont_spec; nlia). rewrite K2. cbn [negb].
    assert (K3: is_cont a2 = true) by (apply is_cont_spec; nlia). rewrite K3. cbn [negb].
    assert (R: (240 <= N_of_ascii a <= 244)%N) by (nlia).
    assert (R1: (N_of_ascii a = 240 -> 144 <= N_of_ascii a0)%N) by (nlia).
    assert (R2: (N_of_ascii a = 244 -> N_of_ascii a0 < 144)%N) by (nlia).
    clear - R R1 R2. rewrite !byte_N. repeat (bcase; bnorm); auto; try discriminate; lia.
Qed.

(** ** States *)
Lemma is_digit_spec : forall c, is_digit c = true <-> digit_char c.
Proof. intros c. unfold is_digit, digit_char. rewrite andb_true_iff, !Nat.leb_le. tauto. Qed.
Lemma digit_ident : forall c, is_ident c = false -> is_digit c = false.
Proof. intros c H. destruct (is_digit c) eqn:E; auto. unfold is_digit, is_ident in *. rewrite E in H. discriminate. Qed.
Lemma take_drop : forall (f : ascii -> bool) s, s = take_while f s ++ drop_while f s /\ Forall (fun c => f c = true) (take_while f s).
Proof. intros f. induction s as [|c s [IH1 IH2]]; cbn [take_while drop_while]; auto. destruct (f c) eqn:E; cbn; auto. split; [f_equal; auto|]. constructor; auto. Qed.
Lemma take_drop_app : forall (f : ascii -> bool) l rest, Forall (fun c => f c = true) l -> match rest with [] => True | c :: _ => f c = false end ->
  take_while f (l ++ rest) = l /\ drop_while f (l ++ rest) = rest.
Proof.
  intros f l rest H Hr. induction H as [|c l Hc H [IH1 IH2]]; cbn.
  - destruct rest as [|c rest]; cbn; auto. rewrite Hr. auto.
  - rewrite Hc, IH1, IH2. auto.
Qed.
Lemma quote_eq : quote = dquote.
Proof. reflexivity. Qed.
Lemma backslash_eq : backslash = escape.
Proof. reflexivity. Qed.

Definition ref_act (r : sref) : qact := if sr_quoted r then QString (sr_name r) else QState (sr_name r).

Lemma p_string_sound : forall n s acc rest acts, p_string n s acc = QOk rest acts ->
  exists m t, s = t ++ dquote :: rest /\ gstring m t /\ acts = [QString (acc ++ m)].
Proof.
  induction n as [|n IH]; intros s acc rest acts H; [discriminate|]. destruct s as [|c s1]; [discriminate|]. cbn [p_string] in H.
  destruct (c_is c quote) eqn:E1.
  - apply c_is_eq in E1. subst c. injection H as <- <-. exists [], []. ands; [auto|constructor|rewrite app_nil_r; auto].
  - destruct (c_is c backslash) eqn:E2.
    + apply c_is_eq in E2. subst c. destruct s1 as [|d s2]; [discriminate|]. destruct (c_is d quote || c_is d backslash) eqn:E3; [|discriminate].
      apply IH in H. destruct H as [m [t [-> [Hg ->]]]]. exists (d :: m), (escape :: d :: t). ands; auto.
      * apply gstr_esc; auto. apply orb_true_iff in E3. destruct E3 as [E3|E3]; apply c_is_eq in E3; auto.
      * rewrite <- app_assoc. auto.
    + destruct (utf8_len (c :: s1)) as [k|] eqn:E3; [|discriminate]. apply utf8_len_sound in E3. destruct E3 as [K1 [K2 K3]].
      apply IH in H. destruct H as [m [t [H [Hg ->]]]]. exists (firstn k (c :: s1) ++ m), (firstn k (c :: s1) ++ t). ands.
      * rewrite <- app_assoc, <- H. symmetry. apply firstn_skipn.
      * destruct k; [lia|]. apply gstr_char; auto; cbn; intros X; injection X as X _; subst c; [rewrite c_is_refl in E1|rewrite c_is_refl in E2]; discriminate.
      * rewrite <- app_assoc. auto.
Qed.
Lemma p_string_complete : forall m t, gstring m t -> forall n acc rest, length (t ++ dquote :: rest) <= n ->
  p_string n (t ++ dquote :: rest) acc = QOk rest [QString (acc ++ m)].
Proof.
  intros m t H. induction H as [|c m t Hc H IH|u m t Hu N1 N2 H IH]; intros n acc rest Hn.
  - destruct n; [cbn in Hn; lia|]. cbn [app p_string]. rewrite quote_eq, c_is_refl, app_nil_r. auto.
  - destruct n; [cbn in Hn; lia|]. cbn [app p_string]. change (c_is escape quote) with false. rewrite backslash_eq, c_is_refl.
    assert (E: c_is c quote || c_is c escape = true) by (destruct Hc as [-> | ->]; reflexivity). rewrite E. rewrite IH; [rewrite <- app_assoc; auto|]. cbn in Hn. lia.
  - rewrite <- app_assoc in *. destruct (utf8_len_complete u (t ++ dquote :: rest) Hu) as [E NE].
    destruct n; [destruct u; [congruence|cbn in Hn; lia]|]. destruct u as [|c u]; [congruence|]. cbn [app p_string].
    assert (E1: forall x, c_is c x = true -> x = dquote \/ x = escape -> False).
    { intros x Ec Hx. apply c_is_eq in Ec. subst x. destruct Hu as [v [_ Hv]]. cbn [map] in Hv. 
      assert (u = []).
      { unfold utf8 in Hv. destruct u as [|c1 u]; auto. exfalso. assert (B: (N_of_ascii c < 128)%N) by (destruct Hx as [-> | ->]; reflexivity).
        repeat (bcase; bnorm); apply cons_inj in Hv; destruct Hv as [Hv Hw]; try discriminate; nlia. }
      subst u. destruct Hx as [-> | ->]; congruence. }
    destruct (c_is c quote) eqn:E2; [exfalso; apply (E1 quote); auto|]. destruct (c_is c backslash) eqn:E3; [exfalso; apply (E1 backslash); auto|].
    change (c :: u ++ t ++ dquote :: rest) with ((c :: u) ++ t ++ dquote :: rest). rewrite E.
    rewrite skipn_app, firstn_app, Nat.sub_diag, skipn_all, firstn_all. cbn [skipn firstn app]. rewrite app_nil_r.
    rewrite IH; [rewrite <- app_assoc; auto|]. cbn [length app] in Hn. rewrite app_length in Hn. lia.
Qed.

Lemma p_state_sound : forall s rest acts, p_state s = QOk rest acts -> exists r t, s = t ++ rest /\ gstate r t /\ acts = [ref_act r].
Proof.
  intros s rest acts H. destruct s as [|c s]; [discriminate|]. unfold p_state in H.
  destruct (is_digit c) eqn:E1; [|destruct (is_ident c) eqn:E2; [|destruct (c_is c quote) eqn:E3; [|discriminate]]].
  - remember (c :: s) as s0 eqn:Es. injection H as <- <-. destruct (take_drop is_digit s0) as [T1 T2]. exists (mk_sref false (take_while is_digit s0)), (take_while is_digit s0).
    ands; auto. constructor. split; [subst s0; cbn; rewrite E1; discriminate|]. eapply Forall_impl; [|exact T2]. intros a Ha. apply is_digit_spec; auto.
  - remember (c :: s) as s0 eqn:Es. injection H as <- <-. destruct (take_drop is_ident s0) as [T1 T2]. exists (mk_sref false (take_while is_ident s0)), (take_while is_ident s0).
    ands; auto. apply gst_ident. split; [eapply Forall_impl; [|exact T2]; intros a Ha; apply is_ident_spec; auto|]. subst s0. cbn. rewrite E2. intros X. apply is_digit_spec in X. congruence.
  - apply c_is_eq in E3. subst c. apply p_string_sound in H. destruct H as [m [t [-> [Hg ->]]]]. exists (mk_sref true m), (dquote :: t ++ [dquote]). ands; [|constructor; auto|reflexivity].
    cbn. rewrite <- app_assoc. auto.
Qed.
Definition not_ident (s : list ascii) : Prop := match s with [] => True | c :: _ => is_ident c = false end.
Lemma p_state_complete : forall r t rest, gstate r t -> not_ident rest -> p_state (t ++ rest) = QOk rest [ref_act r].
Proof.
  intros r t rest H Hr. destruct H as [s [Hn Hf]|s [Hf Hd]|m t H].
  - assert (D: Forall (fun c => is_digit c = true) s) by (eapply Forall_impl; [|exact Hf]; intros a Ha; apply is_digit_spec; auto).
    destruct (take_drop_app is_digit s rest D) as [T1 T2]. { destruct rest; auto. apply digit_ident; auto. }
    destruct s as [|c s]; [congruence|]. unfold p_state. cbn [app] in *. rewrite T1, T2. inversion D; subst. rewrite H1. auto.
  - assert (D: Forall (fun c => is_ident c = true) s) by (eapply Forall_impl; [|exact Hf]; intros a Ha; apply is_ident_spec; auto).
    destruct (take_drop_app is_ident s rest D Hr) as [T1 T2]. destruct s as [|c s]; [destruct Hd|]. unfold p_state. cbn [app] in *. rewrite T1, T2. inversion D; subst. rewrite H1.
    destruct (is_digit c) eqn:E; auto. exfalso. apply Hd. apply is_digit_spec; auto.
  - cbn [app p_state]. change (is_digit dquote) with false. change (is_ident dquote) with false. rewrite quote_eq, c_is_refl. rewrite <- app_assoc. cbn [app].
    rewrite (p_string_complete m t H); auto.
Qed.
Lemma gstate_starts : forall r t rest, gstate r t -> starts (t ++ rest) /\ t <> [] /\ match t with [] => False | c :: _ => c_is c "[" = false end.
Proof.
  intros r t rest H. assert (L: forall s, s <> [] -> Forall ident_char s -> starts (s ++ rest) /\ s <> [] /\ match s with [] => False | c :: _ => c_is c "[" = false end).
  { intros s Hn Hf. ands; auto; [apply label_starts; split; auto|]. destruct s as [|c s]; [congruence|]. inversion Hf as [|x y Hx Hy]; subst. apply c_is_neq. intros ->.
    apply is_ident_spec in Hx. discriminate. }
  destruct H as [s [Hn Hf]|s [Hf Hd]|m t H].
  - apply L; auto. eapply Forall_impl; [|exact Hf]. intros a Ha. unfold digit_char, ident_char in *. lia.
  - apply L; auto. destruct s; [destruct Hd|discriminate].
  - ands; [reflexivity|discriminate|reflexivity].
Qed.

(** The part of a list of states after the first. *)
Inductive gstl : list sref -> list ascii -> Prop :=
| gstl_nil : gstl [] []
| gstl_cons : forall i1 i2 r s rs t, ign i1 -> ign i2 -> gstate r s -> gstl rs t -> gstl (r :: rs) (i1 ++ ","%char :: i2 ++ s ++ t).
Lemma gstates_list : forall rs s, gstates rs s <-> exists r rs' s1 t, rs = r :: rs' /\ s = s1 ++ t /\ gstate r s1 /\ gstl rs' t.
Proof.
  intros rs s. split.
  - intros H. induction H as [r s Hs|r s i1 i2 rs s' Hs Hi1 Hi2 H IH].
    + exists r, [], s, []. rewrite app_nil_r. ands; auto. constructor.
    + destruct IH as [r' [rs' [s1 [t [-> [-> [Hl Ht]]]]]]]. exists r, (r' :: rs'), s, (i1 ++ ","%char :: i2 ++ s1 ++ t). ands; auto. constructor; auto.
  - intros [r [rs' [s1 [t [-> [-> [Hl Ht]]]]]]]. revert r s1 Hl. induction Ht; intros r0 s1 Hl; [rewrite app_nil_r; constructor; auto|]. constructor; auto.
Qed.
Lemma qmust_ok : forall o rest acts, qmust o = QOk rest acts -> o = QOk rest acts.
Proof. intros [] rest' acts' H; cbn in H; congruence. Qed.
Lemma p_states_rest_sound : forall n s acts rest acts', p_states_rest n s acts = QOk rest acts' ->
  exists rs t, s = t ++ rest /\ gstl rs t /\ acts' = acts ++ map ref_act rs.
Proof.
  assert (B: forall s acts, exists rs t, s = t ++ s /\ gstl rs t /\ acts = acts ++ map ref_act rs).
  { intros s acts. exists [], []. ands; auto; [constructor|rewrite app_nil_r; auto]. }
  induction n as [|n IH]; intros s acts rest acts' H; cbn [p_states_rest] in H.
  - injection H as <- <-. apply B.
  - destruct (skip s) as [|c s1] eqn:E; [injection H as <- <-; apply B|]. destruct (c_is c ",") eqn:Ec; [|injection H as <- <-; apply B].
    apply c_is_eq in Ec. subst c. destruct (qmust (p_state (skip s1))) as [s2 a2| |] eqn:E1; try discriminate. apply qmust_ok in E1.
    apply IH in H. destruct H as [rs [t [-> [Ht ->]]]]. apply p_state_sound in E1. destruct E1 as [r [u [E1 [Hr ->]]]].
    apply skip_ne in E. destruct E as [_ [i1 [Hi1 ->]]]. destruct (gstate_starts r u (t ++ rest) Hr) as [_ [NE _]].
    destruct u as [|c u]; [congruence|]. cbn [app] in E1. apply skip_ne in E1. destruct E1 as [_ [i2 [Hi2 ->]]].
    exists (r :: rs), (i1 ++ ","%char :: i2 ++ (c :: u) ++ t). ands.
    + repeat (cbn; rewrite <- app_assoc). auto.
    + constructor; auto.
    + rewrite <- app_assoc. auto.
Qed.
Lemma gstl_follow : forall rs t rest, gstl rs t -> not_ident (t ++ "]"%char :: rest).
Proof. intros rs t rest H. destruct H; cbn; auto. rewrite <- app_assoc. cbn [app]. apply ign_not_ident; auto. Qed.
Lemma p_states_rest_complete : forall rs t, gstl rs t -> forall n rest acts, length rs <= n ->
  p_states_rest n (t ++ "]"%char :: rest) acts = QOk ("]"%char :: rest) (acts ++ map ref_act rs).
Proof.
  intros rs t H. induction H as [|i1 i2 r s rs t Hi1 Hi2 Hs Ht IH]; intros n rest acts Hn.
  - cbn [map]. rewrite app_nil_r. destruct n; auto.
  - destruct n; [cbn in Hn; lia|]. cbn [p_states_rest]. rewrite <- app_assoc. cbn [app]. rewrite skip_app; auto; [|reflexivity]. rewrite c_is_refl.
    rewrite <- app_assoc. rewrite skip_app; auto; [|rewrite <- app_assoc; eapply gstate_starts; eauto]. rewrite <- app_assoc. rewrite (p_state_complete r); auto; [|eapply gstl_follow; eauto].
    cbn [qmust]. cbn in Hn. rewrite IH; [|lia]. rewrite <- app_assoc. auto.
Qed.
Lemma gstl_length : forall rs t, gstl rs t -> length rs <= length t.
Proof. intros rs t H. induction H; cbn; auto. rewrite app_length. cbn. rewrite !app_length. lia. Qed.

Lemma p_initial_sound : forall s rest acts, p_initial s = QOk rest acts -> exists rs t, s = t ++ rest /\ ginitial rs t /\ acts = map ref_act rs.
Proof.
  intros s rest acts H. destruct s as [|c s]; [discriminate|]. unfold p_initial in H. destruct (c_is c "[") eqn:E.
  - apply c_is_eq in E. subst c. destruct (qmust (p_state s)) as [s2 a2| |] eqn:E1; try discriminate. apply qmust_ok in E1. apply p_state_sound in E1. destruct E1 as [r [t [-> [Hr ->]]]].
    destruct (p_states_rest (length s2) s2 [ref_act r]) as [[|d s3] a3| |] eqn:E2; try discriminate. destruct (c_is d "]") eqn:E3; [|discriminate]. apply c_is_eq in E3. subst d.
    injection H as <- <-. apply p_states_rest_sound in E2. destruct E2 as [rs [u [-> [Hu ->]]]]. exists (r :: rs), ("["%char :: (t ++ u) ++ ["]"%char]). ands; auto.
    + cbn. rewrite <- !app_assoc. auto.
    + apply gi_list. apply gstates_list. exists r, rs, t, u. auto.
  - apply p_state_sound in H. destruct H as [r [t [-> [Hr ->]]]]. exists [r], t. ands; auto. constructor; auto.
Qed.
Lemma p_initial_complete : forall rs t rest, ginitial rs t -> not_ident rest -> p_initial (t ++ rest) = QOk rest (map ref_act rs).
Proof.
  intros rs t rest H Hr. destruct H as [r s H|rs s H].
  - destruct (gstate_starts r s rest H) as [_ [NE NB]]. pose proof (p_state_complete r s rest H Hr) as E. destruct s as [|c s]; [congruence|]. unfold p_initial. cbn [app] in *. rewrite NB, E. auto.
  - apply gstates_list in H. destruct H as [r [rs' [s1 [u [-> [-> [Hs Hu]]]]]]]. cbn [app p_initial]. rewrite c_is_refl. rewrite <- !app_assoc. cbn [app].
    rewrite (p_state_complete r); auto; [|eapply gstl_follow; eauto]. cbn [qmust]. rewrite (p_states_rest_complete rs' u Hu); [|apply gstl_length in Hu; rewrite app_length; lia].
    rewrite c_is_refl. auto.
Qed.
Lemma ginitial_starts : forall rs t rest, ginitial rs t -> starts (t ++ rest) /\ t <> [].
Proof. intros rs t rest H. destruct H as [r s H|rs s H]; [destruct (gstate_starts r s rest H) as [A [B _]]; auto|split; [reflexivity|discriminate]]. Qed.

(** ** Atoms and whole texts *)
Section Grammar.
  Variable lf : list ascii -> nat.
  Notation go := (ofold (do_act lf)).
  (** The calls for one expression: they name the labels of [r] in order and yield its automaton. *)
  Definition nfa_eff (acts : list act) (r : regex) : Prop :=
    map lf (alabs acts) = rlabels r /\ exists b, go acts b_init = Some b /\ get_nfa b = Some (nfa_of r).
  Lemma nfa_eff_nil : nfa_eff [] REps.
  Proof. split; auto. exists b_init. auto. Qed.
  Lemma nfa_eff_exp : forall acts r, exp_eff lf acts r -> nfa_eff acts r.
  Proof. intros acts r [HL H]. split; auto. eexists. split; [apply (H [] []); exact Logic.I|reflexivity]. Qed.

  Lemma p_nfa_sound : forall s rest acts, p_nfa s = QOk (">"%char :: rest) acts -> exists r t na, s = t ++ ">"%char :: rest /\ gbody lf r t /\ acts = [QNfa na] /\ nfa_eff na r.
  Proof.
    intros s rest acts H. unfold p_nfa in H. destruct (p_expr (S (length s)) (skip s)) as [s1 a1|a1|] eqn:E; [| |discriminate].
    - injection H as H <-. pose proof (p_expr_sound lf _ _ _ _ E) as [[s' K]|[r [t [Et [Hg He]]]]]; [congruence|].
      apply skip_ne in H. destruct H as [_ [i2 [Hi2 ->]]].
      destruct (skip_spec s) as [_ [i [X1 X2]]]. pose proof (gexpr_start lf r t (i2 ++ ">"%char :: rest) Hg) as K. rewrite <- Et in K.
      destruct X2 as [X2|[X2 _]]; [|rewrite X2 in K; discriminate]. exists r, (i ++ t ++ i2), a1. ands; auto; [|constructor; auto|apply nfa_eff_exp; auto].
      rewrite X1, Et, <- !app_assoc. auto.
    - injection H as H <-. rewrite skip_skip in H. apply p_expr_fail in E. destruct E as [-> _]. apply skip_ne in H. destruct H as [_ [i [Hi ->]]].
      exists REps, i, []. ands; auto; [constructor; auto|apply nfa_eff_nil].
  Qed.
  Lemma p_nfa_complete : forall r t rest, gbody lf r t -> exists na, p_nfa (t ++ ">"%char :: rest) = QOk (">"%char :: rest) [QNfa na] /\ nfa_eff na r.
  Proof.
    intros r t rest H. unfold p_nfa. destruct H as [i Hi|r i1 s i2 H1 Hg H2].
    - rewrite skip_app; auto; [|reflexivity]. exists []. split; [|apply nfa_eff_nil].
      assert (E: forall m, p_expr (S m) (">"%char :: rest) = OFail []) by reflexivity. rewrite E. rewrite skip_start; [auto|reflexivity].
    - rewrite <- !app_assoc. rewrite skip_app; auto; [|apply value_starts; eapply gexpr_start; eauto].
      destruct (p_expr_complete lf (S (length (i1 ++ s ++ i2 ++ ">"%char :: rest))) r s (i2 ++ ">"%char :: rest) Hg) as [acts [E He]].
      { rewrite !app_length. lia. } { apply fol_close; auto. }
      rewrite E. rewrite skip_app; auto; [|reflexivity]. exists acts. split; auto. apply nfa_eff_exp; auto.
  Qed.

  (** The calls for an atom and for a query. *)
  Inductive atom_acts : qatom -> list qact -> Prop :=
  | aa_intro : forall rs r na, nfa_eff na r -> atom_acts (mk_qatom rs r) (map ref_act rs ++ [QNfa na; QAtom]).
  Inductive query_acts : list qatom -> list qact -> Prop :=
  | qa_nil : query_acts [] []
  | qa_cons : forall a q acts acts', atom_acts a acts -> query_acts q acts' -> query_acts (a :: q) (acts ++ acts').

  Lemma p_atom_sound : forall s rest acts, p_atom s = QOk rest acts -> exists a t, s = t ++ rest /\ gatom lf a t /\ atom_acts a acts.
  Proof.
    intros s rest acts H. destruct s as [|c s1]; [discriminate|]. unfold p_atom in H. destruct (c_is c "<") eqn:E; [|discriminate]. apply c_is_eq in E. subst c.
    destruct (p_initial (skip s1)) as [s2 a2| |] eqn:E1; try discriminate. destruct (skip s2) as [|d s3] eqn:E2; [discriminate|].
    destruct (c_is d ",") eqn:E3; [|discriminate]. apply c_is_eq in E3. subst d. destruct (p_nfa s3) as [[|e s4] a4| |] eqn:E4; try discriminate.
    destruct (c_is e ">") eqn:E5; [|discriminate]. apply c_is_eq in E5. subst e. injection H as <- <-.
    apply p_initial_sound in E1. destruct E1 as [rs [t1 [E1 [Hi ->]]]]. apply skip_ne in E2. destruct E2 as [_ [i2 [Hi2 ->]]].
    apply p_nfa_sound in E4. destruct E4 as [r [t [na [-> [Hb [-> He]]]]]].
    destruct (ginitial_starts rs t1 [] Hi) as [_ NE]. destruct t1 as [|c t1]; [congruence|]. cbn [app] in E1. apply skip_ne in E1. destruct E1 as [_ [i1 [Hi1 ->]]].
    exists (mk_qatom rs r), ("<"%char :: i1 ++ (c :: t1) ++ i2 ++ ","%char :: t ++ [">"%char]). ands.
    - repeat (cbn; rewrite <- ?app_assoc). auto.
    - constructor; auto.
    - constructor; auto.
  Qed.
  Lemma p_atom_complete : forall a t rest, gatom lf a t -> exists acts, p_atom (t ++ rest) = QOk rest acts /\ atom_acts a acts.
  Proof.
    intros a t rest H. destruct H as [rs r i1 s1 i2 s2 H1 Hi H2 Hb].
    destruct (p_nfa_complete r s2 rest Hb) as [na [E He]]. exists (map ref_act rs ++ [QNfa na; QAtom]). split; [|constructor; auto].
    cbn [app p_atom]. rewrite c_is_refl. repeat (rewrite <- app_assoc; cbn [app]). rewrite skip_app; auto; [|eapply ginitial_starts; eauto].
    rewrite (p_initial_complete rs); auto; [|apply ign_not_ident; auto]. rewrite skip_app; auto; [|reflexivity]. rewrite c_is_refl, E. rewrite c_is_refl. auto.
  Qed.
  Lemma gatom_starts : forall a t rest, gatom lf a t -> starts (t ++ rest) /\ t <> [].
  Proof. intros a t rest H. destruct H. split; [reflexivity|discriminate]. Qed.

  Inductive gatl : list qatom -> list ascii -> Prop :=
  | gatl_nil : gatl [] []
  | gatl_cons : forall i1 i2 r s rs t, ign i1 -> ign i2 -> gatom lf r s -> gatl rs t -> gatl (r :: rs) (i1 ++ "|"%char :: i2 ++ s ++ t).
  Lemma gatoms_list : forall q s, gatoms lf q s <-> exists a q' s1 t, q = a :: q' /\ s = s1 ++ t /\ gatom lf a s1 /\ gatl q' t.
  Proof.
    intros rs s. split.
    - intros H. induction H as [r s Hs|r s i1 i2 rs s' Hs Hi1 Hi2 H IH].
      + exists r, [], s, []. rewrite app_nil_r. ands; auto. constructor.
      + destruct IH as [r' [rs' [s1 [t [-> [-> [Hl Ht]]]]]]]. exists r, (r' :: rs'), s, (i1 ++ "|"%char :: i2 ++ s1 ++ t). ands; auto. constructor; auto.
    - intros [r [rs' [s1 [t [-> [-> [Hl Ht]]]]]]]. revert r s1 Hl. induction Ht; intros r0 s1 Hl; [rewrite app_nil_r; constructor; auto|]. constructor; auto.
  Qed.
  Lemma p_atoms_rest_sound : forall n s acts rest acts', p_atoms_rest n s acts = QOk rest acts' ->
    exists q t a', s = t ++ rest /\ gatl q t /\ acts' = acts ++ a' /\ query_acts q a'.
  Proof.
    assert (B: forall s acts, exists q t a', s = t ++ s /\ gatl q t /\ acts = acts ++ a' /\ query_acts q a').
    { intros s acts. exists [], [], []. ands; auto; [constructor|rewrite app_nil_r; auto|constructor]. }
    induction n as [|n IH]; intros s acts rest acts' H; cbn [p_atoms_rest] in H.
    - injection H as <- <-. apply B.
    - destruct (skip s) as [|c s1] eqn:E; [injection H as <- <-; apply B|]. destruct (c_is c "|") eqn:Ec; [|injection H as <- <-; apply B].
      apply c_is_eq in Ec. subst c. destruct (qmust (p_atom (skip s1))) as [s2 a2| |] eqn:E1; try discriminate. apply qmust_ok in E1.
      apply IH in H. destruct H as [q [t [a' [-> [Ht [-> Hq]]]]]]. apply p_atom_sound in E1. destruct E1 as [a [u [E1 [Hr He]]]].
      apply skip_ne in E. destruct E as [_ [i1 [Hi1 ->]]]. destruct (gatom_starts a u (t ++ rest) Hr) as [_ NE].
      destruct u as [|c u]; [congruence|]. cbn [app] in E1. apply skip_ne in E1. destruct E1 as [_ [i2 [Hi2 ->]]].
      exists (a :: q), (i1 ++ "|"%char :: i2 ++ (c :: u) ++ t), (a2 ++ a'). ands.
      + repeat (cbn; rewrite <- app_assoc). auto.
      + constructor; auto.
      + rewrite <- app_assoc. auto.
      + constructor; auto.
  Qed.
  Lemma p_atoms_rest_complete : forall q t, gatl q t -> forall n rest acts, length q <= n -> skip rest = [] ->
    exists a', p_atoms_rest n (t ++ rest) acts = QOk rest (acts ++ a') /\ query_acts q a'.
  Proof.
    intros q t H. induction H as [|i1 i2 a s q t Hi1 Hi2 Hs Ht IH]; intros n rest acts Hn Hr.
    - exists []. rewrite app_nil_r. split; [|constructor]. destruct n; auto. cbn [p_atoms_rest app]. rewrite Hr. auto.
    - destruct n; [cbn in Hn; lia|]. cbn [p_atoms_rest]. rewrite <- app_assoc. cbn [app]. rewrite skip_app; auto; [|reflexivity]. rewrite c_is_refl.
      rewrite <- app_assoc. rewrite skip_app; auto; [|rewrite <- app_assoc; eapply gatom_starts; eauto]. rewrite <- app_assoc.
      destruct (p_atom_complete a s (t ++ rest) Hs) as [a2 [E2 He2]]. rewrite E2. cbn [qmust]. cbn in Hn.
      destruct (IH n rest (acts ++ a2)) as [a' [E' He']]; [lia|auto|]. exists (a2 ++ a'). rewrite E', <- app_assoc. split; auto. constructor; auto.
  Qed.
  Lemma gatl_length : forall q t, gatl q t -> length q <= length t.
  Proof. intros rs t H. induction H; cbn; auto. rewrite app_length. cbn. rewrite !app_length. lia. Qed.

  Theorem p_query_sound : forall s rest acts, p_query s = QOk rest acts -> exists q, gquery lf q s /\ query_acts q acts.
  Proof.
    intros s rest acts H. unfold p_query in H. destruct (qmust (p_atom (skip s))) as [s1 a1| |] eqn:E1; try discriminate. apply qmust_ok in E1.
    destruct (p_atoms_rest (length s1) s1 a1) as [s2 a2| |] eqn:E2; try discriminate. destruct (skip s2) eqn:E3; [|discriminate]. injection H as <- <-.
    apply p_atom_sound in E1. destruct E1 as [a [t [E1 [Ha Hc]]]]. apply p_atoms_rest_sound in E2. destruct E2 as [q [u [a' [-> [Hu [-> Hq]]]]]].
    destruct (gatom_starts a t [] Ha) as [_ NE]. destruct t as [|c t]; [congruence|]. cbn [app] in E1. apply skip_ne in E1. destruct E1 as [_ [i [Hi ->]]].
    exists (a :: q). split; [|constructor; auto].
    change (c :: t ++ u ++ s2) with ((c :: t) ++ u ++ s2). rewrite (app_assoc (c :: t)). constructor; auto; [|apply skip_nil; auto].
    apply gatoms_list. exists a, q, (c :: t), u. auto.
  Qed.
  Theorem p_query_complete : forall s q, gquery lf q s -> exists acts, p_query s = QOk [] acts /\ query_acts q acts.
  Proof.
    intros s q H. destruct H as [i q s i' Hi Hq Hi']. apply gatoms_list in Hq. destruct Hq as [a [q' [s1 [t [-> [-> [Ha Ht]]]]]]].
    unfold p_query. rewrite <- app_assoc. rewrite skip_app; auto; [|eapply gatom_starts; eauto].
    destruct (p_atom_complete a s1 (t ++ i') Ha) as [a1 [E1 He1]]. rewrite E1. cbn [qmust].
    destruct (p_atoms_rest_complete q' t Ht (length (t ++ i')) i' a1) as [a' [E2 He2]]; [apply gatl_length in Ht; rewrite app_length; lia|apply skip_end; auto|].
    rewrite E2, (skip_end i' Hi'). exists (a1 ++ a'). split; auto. constructor; auto.
  Qed.
End Grammar.

(** ** The label map *)
Lemma text_eqb_eq : forall a b, text_eqb a b = true <-> a = b.
Proof.
  induction a as [|x a IH]; intros [|y b]; cbn; try (split; congruence). rewrite andb_true_iff, Ascii.eqb_eq, IH. split; [intros [-> ->]; auto|intros H; injection H; auto].
Qed.
Lemma tab_id_le : forall tab s, tab_id tab s <= length tab.
Proof. induction tab as [|t tab IH]; intros s; cbn; auto. destruct (text_eqb t s); [lia|]. specialize (IH s). lia. Qed.
Lemma tab_id_lt : forall tab s, tab_id tab s < length tab <-> In s tab.
Proof.
  induction tab as [|t tab IH]; intros s; cbn; [split; [lia|intros []]|]. destruct (text_eqb t s) eqn:E.
  - apply text_eqb_eq in E. split; [auto|lia].
  - rewrite <- Nat.succ_lt_mono, IH. split; auto. intros [H|H]; auto. apply text_eqb_eq in H. congruence.
Qed.
Lemma tab_id_app : forall tab x s, In s tab -> tab_id (tab ++ x) s = tab_id tab s.
Proof.
  induction tab as [|t tab IH]; intros x s H; [destruct H|]. cbn. destruct (text_eqb t s) eqn:E; auto. f_equal. apply IH. destruct H as [H|H]; auto. apply text_eqb_eq in H. congruence.
Qed.
Lemma tab_id_nth : forall tab i t, NoDup tab -> nth_error tab i = Some t -> tab_id tab t = i.
Proof.
  induction tab as [|x tab IH]; intros i t ND H; [destruct i; discriminate|]. inversion ND; subst. destruct i as [|i]; cbn in *.
  - injection H as ->. rewrite (proj2 (text_eqb_eq t t)); auto.
  - destruct (text_eqb x t) eqn:E; [|f_equal; auto]. apply text_eqb_eq in E. subst x. exfalso. apply H2. eapply nth_error_In; eauto.
Qed.
Lemma tab_id_numbering : forall tab, NoDup tab -> numbering (tab_id tab) tab.
Proof.
  intros tab ND. split; [intros; apply tab_id_nth; auto|]. intros t H. destruct (le_lt_dec (length tab) (tab_id tab t)); auto. exfalso. apply H. apply tab_id_lt; auto.
Qed.
Lemma tab_insert_spec : forall tab s, exists x, tab_insert tab s = tab ++ x /\ In s (tab_insert tab s) /\ (NoDup tab -> NoDup (tab_insert tab s)) /\
  forall y, length (tab_insert tab s) = Nat.max (length tab) (S (tab_id (tab_insert tab s ++ y) s)).
Proof.
  intros tab s. unfold tab_insert. destruct (Nat.ltb (tab_id tab s) (length tab)) eqn:E.
  - apply Nat.ltb_lt in E. exists []. rewrite app_nil_r. ands; auto; [apply tab_id_lt; auto|]. intros y. rewrite tab_id_app; [lia|apply tab_id_lt; auto].
  - apply Nat.ltb_ge in E. assert (NI: ~ In s tab) by (rewrite <- tab_id_lt; lia). exists [s]. ands; auto.
    + apply in_or_app; cbn; auto.
    + intros ND. apply NoDup_app_snoc; auto.
    + intros y. rewrite app_length. cbn. rewrite tab_id_app; [|apply in_or_app; cbn; auto].
      assert (tab_id (tab ++ [s]) s = length tab).
      { clear E. induction tab as [|t tab IH]; cbn; [rewrite (proj2 (text_eqb_eq s s)); auto|]. destruct (text_eqb t s) eqn:E; [apply text_eqb_eq in E; cbn in NI; tauto|].
        f_equal. apply IH. cbn in NI. tauto. } lia.
Qed.
Definition tab_add (ls : list (list ascii)) (tab : list (list ascii)) : list (list ascii) := fold_left tab_insert ls tab.
Lemma tab_add_spec : forall ls tab, exists x, tab_add ls tab = tab ++ x /\ (NoDup tab -> NoDup (tab_add ls tab)) /\ (forall s, In s ls -> In s (tab_add ls tab)) /\
  forall y, length (tab_add ls tab) = fold_right Nat.max (length tab) (map S (map (tab_id (tab_add ls tab ++ y)) ls)).
Proof.
  induction ls as [|s ls IH]; intros tab; cbn [tab_add fold_left].
  - exists []. rewrite app_nil_r. ands; auto. intros s [].
  - destruct (tab_insert_spec tab s) as [x [E1 [I1 [N1 L1]]]]. destruct (IH (tab_insert tab s)) as [x' [E2 [N2 [I2 L2]]]]. fold (tab_add ls (tab_insert tab s)) in *.
    exists (x ++ x'). ands; auto.
    + rewrite E2, E1, app_assoc. auto.
    + intros t [<-|Ht]; auto. rewrite E2. apply in_or_app; auto.
    + intros y. rewrite (L2 y). cbn [map fold_right]. specialize (L1 (x' ++ y)). rewrite app_assoc, <- E2 in L1. rewrite L1 at 1.
      generalize (map S (map (tab_id (tab_add ls (tab_insert tab s) ++ y)) ls)). generalize (tab_id (tab_add ls (tab_insert tab s) ++ y) s). clear. intros m l.
      induction l as [|z l IHl]; cbn; lia.
Qed.
Lemma do_act_label : forall lf lf' b a, (forall s, a = ALabel s -> lf s = lf' s) -> do_act lf b a = do_act lf' b a.
Proof. intros lf lf' b a H. destruct a; cbn; auto. rewrite (H s); auto. Qed.
Lemma do_acts_ins : forall acts tab b y, ofold do_act_ins acts (tab, b) =
  (b' <- ofold (do_act (tab_id (tab_add (alabs acts) tab ++ y))) acts b ;; Some (tab_add (alabs acts) tab, b')).
Proof.
  induction acts as [|a acts IH]; intros tab b y; cbn [ofold]; auto. unfold do_act_ins at 1. cbn [fst snd].
  set (tab1 := match a with ALabel s => tab_insert tab s | _ => tab end).
  assert (ET: tab_add (alabs (a :: acts)) tab = tab_add (alabs acts) tab1) by (destruct a; reflexivity).
  rewrite ET. destruct (tab_add_spec (alabs acts) tab1) as [x [EX _]].
  rewrite (do_act_label (tab_id tab1) (tab_id (tab_add (alabs acts) tab1 ++ y))).
  - destruct (do_act _ b a) as [b1|]; cbn [obind]; auto.
  - intros s ->. rewrite EX, <- app_assoc. symmetry. apply tab_id_app. subst tab1. destruct (tab_insert_spec tab s) as [z [_ [Z _]]]. auto.
Qed.
