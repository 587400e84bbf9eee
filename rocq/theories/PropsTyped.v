(** C39, C40, C58: label and state maps, byte encodings of their keys, typed rules. *)
From Coq Require Import List Arith NArith Lia Bool ZArith.
From Verif Require Import Base BaseFacts Spec PdaModel PdaProof ContainersModel TrieModel RefineModel MappingProof ByteModel ByteProof TypedModel TypedProof.
Import ListNotations.

(** * C39: insert_label and insert_state give each label (state) one id; the ids are 0, 1, ... in order, get_symbol and get_state invert
   them, and later calls do not change them. *)
Section C39.
  Variables (K : Type) (keqb : K -> K -> bool) (ST : Type) (seqb : ST -> ST -> bool) (no_opl : nat).
  Hypothesis keqb_ok : forall a b, keqb a b = true <-> a = b.
  Hypothesis seqb_ok : forall a b, seqb a b = true <-> a = b.

  Theorem C39_label_map : forall asserts (cs : list (tcall K ST)) T, do_tcalls keqb seqb no_opl asserts cs tp_empty = Some T ->
    (forall l i, exists_label keqb T l = Some i <-> get_symbol T i = Some l) /\
    (forall l, (exists i, exists_label keqb T l = Some i) <-> In (TLabel l) cs) /\
    (forall i, (exists l, get_symbol T i = Some l) <-> i < pd_nlab (t_rules T)).
  Proof.
    intros asserts cs T H. apply tcalls_inv in H; auto. split; [|split].
    - intros l i. eapply label_nth; eauto.
    - intros l. rewrite <- (ti_labs _ _ _ _ _ _ H). split.
      + intros [i Hi]. apply (label_nth K keqb ST no_opl keqb_ok cs) in Hi; auto. eapply nth_error_In; eauto.
      + intros Hl. apply In_nth_error in Hl. destruct Hl as [i Hi]. exists i. apply (label_nth K keqb ST no_opl keqb_ok cs); auto.
    - intros i. rewrite (ti_n _ _ _ _ _ _ H). unfold get_symbol, ts_at. split.
      + intros [l Hl]. eapply nth_error_lt; eauto.
      + intros L. destruct (nth_error (t_labels T) i) eqn:E; eauto. apply nth_error_None in E. lia.
  Qed.
  Theorem C39_insert_label : forall asserts (cs : list (tcall K ST)) T l, do_tcalls keqb seqb no_opl asserts cs tp_empty = Some T ->
    get_symbol (fst (insert_label keqb T l)) (snd (insert_label keqb T l)) = Some l /\
    match exists_label keqb T l with
    | Some i => snd (insert_label keqb T l) = i
    | None => snd (insert_label keqb T l) = pd_nlab (t_rules T) /\ pd_nlab (t_rules (fst (insert_label keqb T l))) = S (pd_nlab (t_rules T))
    end.
  Proof.
    intros asserts cs T l H. apply tcalls_inv in H; auto. unfold insert_label, exists_label, ts_exists. destruct (ts_insert keqb (t_labels T) l) as [ls [b i]] eqn:E.
    destruct (ts_insert_spec K keqb keqb_ok _ _ _ _ _ E (ti_nd _ _ _ _ _ _ H)) as (N' & Hn & Hb & Hl & Hi). cbn. split; auto.
    unfold ts_insert in E. destruct (tr_index keqb (t_labels T) l); injection E as <- <- <-; auto. rewrite (ti_n _ _ _ _ _ _ H). split; auto. rewrite app_length. cbn. lia.
  Qed.
  Theorem C39_stable : forall asserts (cs cs2 : list (tcall K ST)) T T2, do_tcalls keqb seqb no_opl asserts cs tp_empty = Some T ->
    do_tcalls keqb seqb no_opl asserts cs2 T = Some T2 ->
    (forall l i, exists_label keqb T l = Some i -> exists_label keqb T2 l = Some i) /\
    (forall s i, exists_state seqb T s = Some i -> exists_state seqb T2 s = Some i).
  Proof.
    intros asserts cs cs2 T T2 H H2. apply tcalls_inv in H; auto. destruct (tcalls_inv_gen K keqb ST seqb no_opl keqb_ok seqb_ok asserts cs2 cs T T2 H H2) as [_ HL].
    split; intros; [eapply tle_label|eapply tle_state]; eauto.
  Qed.
  Theorem C39_state_map : forall asserts (cs : list (tcall K ST)) T, do_tcalls keqb seqb no_opl asserts cs tp_empty = Some T ->
    (forall s i, exists_state seqb T s = Some i <-> get_state T i = Some s) /\
    (forall s, (exists i, exists_state seqb T s = Some i) <-> In (TState s) cs) /\
    (forall s i, get_state T i = Some s -> i < pd_n (t_rules T)).
  Proof.
    intros asserts cs T H. apply tcalls_inv in H; auto. split; [|split].
    - intros l i. eapply state_nth; eauto.
    - intros l. rewrite <- (ti_states _ _ _ _ _ _ H). split.
      + intros [i Hi]. apply (state_nth K keqb ST seqb no_opl seqb_ok cs) in Hi; auto. eapply nth_error_In; eauto.
      + intros Hl. apply In_nth_error in Hl. destruct Hl as [i Hi]. exists i. apply (state_nth K keqb ST seqb no_opl seqb_ok cs); auto.
    - intros s i Hi. apply nth_error_lt in Hi. assert (Z := ti_size _ _ _ _ _ _ H). lia.
  Qed.
End C39.
Print Assumptions C39_label_map.
Print Assumptions C39_insert_label.
Print Assumptions C39_stable.
Print Assumptions C39_state_map.

(** * C58: the rules listed by all_rules are exactly those added. *)
Theorem C58_typed_rules : forall K (keqb : K -> K -> bool) (kdef : K) ST (seqb : ST -> ST -> bool) no_opl,
  (forall a b, keqb a b = true <-> a = b) -> (forall a b, seqb a b = true <-> a = b) ->
  forall asserts (cs : list (tcall K ST)) T, do_tcalls keqb seqb no_opl asserts cs tp_empty = Some T ->
  exists rs, all_rules kdef T = Some rs /\ forall r, In r rs <-> declared K kdef ST cs r.
Proof. intros K keqb kdef ST seqb no_opl K1 K2 asserts cs T H. apply tcalls_inv in H; auto. eapply all_rules_spec; eauto. Qed.
Print Assumptions C58_typed_rules.

(** If the assertions are on and no call repeats a label, the rule store is well formed, so that the theorems about saturation apply. *)
Theorem C58_typed_store : forall K (keqb : K -> K -> bool) ST (seqb : ST -> ST -> bool) no_opl,
  (forall a b, keqb a b = true <-> a = b) -> (forall a b, seqb a b = true <-> a = b) ->
  forall (cs : list (tcall K ST)) T, Forall (nodup_call K ST) cs -> do_tcalls keqb seqb no_opl true cs tp_empty = Some T -> wf_pda (t_rules T).
Proof. intros. eapply typed_wf; eauto. Qed.
Print Assumptions C58_typed_store.

(** Labels 7, 5, 9 get the ids 0, 1, 2. *)
Definition c58_calls : list (tcall nat nat) :=
  [TLabel 7; TLabel 5; TLabel 7; TState 40; TState 30; TRule 0 1 SWAP 5 false [7; 5] 3%Z; TRule 1 0 POP 0 true [] 1%Z; TRule 0 1 SWAP 5 false [5] 3%Z; TLabel 9;
   TRule 0 0 PUSH 9 false [9] 0%Z].
Example C58_case : exists T, do_tcalls Nat.eqb Nat.eqb 1000 true c58_calls tp_empty = Some T /\
  t_labels T = [7; 5; 9] /\ t_states T = [40; 30] /\ exists_label Nat.eqb T 5 = Some 1 /\
  all_rules 0 T = Some [mk_trule 0 9 0 PUSH 9 0%Z; mk_trule 0 7 1 SWAP 5 3%Z; mk_trule 0 5 1 SWAP 5 3%Z;
                        mk_trule 1 7 0 POP 0 1%Z; mk_trule 1 5 0 POP 0 1%Z; mk_trule 1 9 0 POP 0 1%Z].
Proof. eexists. split; [vm_compute; reflexivity|]. vm_compute. auto. Qed.

(** A call whose labels are not in the order of their ids violates an assertion; without assertions the stored labels are not
   sorted and the binary search of labels_t::contains (std::lower_bound, internal/PDA.h 74) misses a label of the rule. *)
Definition contains_by_search (ls : list nat) (l : nat) : option bool :=
  i <- lower_bound (fun y => Nat.ltb y l) ls ;;
  Some (match nth_error ls i with Some y => Nat.eqb y l | None => false end).
Theorem C58_unsorted_labels_refuted : exists cs : list (tcall nat nat), Forall (nodup_call nat nat) cs /\
  (forall from to o opl wc pre w, In (TRule from to o opl wc pre w) cs -> In (TLabel opl) cs /\ forall l, In l pre -> In (TLabel l) cs) /\
  do_tcalls Nat.eqb Nat.eqb 1000 true cs tp_empty = None /\
  exists T ls l, do_tcalls Nat.eqb Nat.eqb 1000 false cs tp_empty = Some T /\
    In (TRule 0 1 SWAP 7 false [5; 7] 0%Z) cs /\ exists_label Nat.eqb T 7 = Some l /\
    In (mk_rule 1 SWAP l 0%Z, ls) (rules_at (t_rules T) 0) /\ In l (labs ls) /\ wild ls = false /\ contains_by_search (labs ls) l = Some false.
Proof.
  exists [TLabel 7; TLabel 5; TRule 0 1 SWAP 7 false [5; 7] 0%Z]. split; [repeat constructor; cbn; intuition congruence|]. split.
  - intros from to o opl wc pre w [H|[H|[H|[]]]]; try discriminate. injection H as <- <- <- <- <- <- <-. cbn. split; auto. intros l [<-|[<-|[]]]; auto.
  - split; [reflexivity|]. eexists _, _, 0. split; [vm_compute; reflexivity|]. split; [cbn; auto|]. split; [reflexivity|]. split; [left; reflexivity|]. cbn. auto.
Qed.
Print Assumptions C58_unsorted_labels_refuted.

(** * C40: the decoder inverts the encoder, also when other bytes follow, so the encoding is injective (and no encoding is a prefix of
   another); the size reserved is the size used. *)
Theorem C40_decode_encode : forall t v, small t -> has_type t v ->
  exists bs, to_ptrie t v = Some bs /\ Forall (fun b => (b < 256)%N) bs /\ unpack t bs = Some v /\ forall r, from_bytes t (bs ++ r) = Some (v, r).
Proof.
  intros t v HS HT. destruct (codec t HS v HT) as (bs & B1 & B2 & B3). exists bs. split; auto. split; auto. split; auto.
  unfold unpack. specialize (B3 []). rewrite app_nil_r in B3. rewrite B3. auto.
Qed.
Theorem C40_injective : forall t v1 v2 b1 b2 r1 r2, small t -> has_type t v1 -> has_type t v2 -> to_ptrie t v1 = Some b1 -> to_ptrie t v2 = Some b2 ->
  b1 ++ r1 = b2 ++ r2 -> v1 = v2 /\ r1 = r2.
Proof.
  intros t v1 v2 b1 b2 r1 r2 HS H1 H2 E1 E2 E. destruct (codec t HS v1 H1) as (x1 & X1 & _ & X2). destruct (codec t HS v2 H2) as (x2 & Y1 & _ & Y2).
  unfold to_ptrie in *. rewrite X1 in E1. injection E1 as ->. rewrite Y1 in E2. injection E2 as ->. specialize (X2 r1). specialize (Y2 r2). rewrite E, Y2 in X2. injection X2 as -> ->. auto.
Qed.
Theorem C40_reserved_size : forall t v bs, accepted_type t -> to_ptrie t v = Some bs -> byte_size t v = Some (length bs).
Proof. intros t v bs HA H. apply size_ok; auto. Qed.
Theorem C40_vectors_and_strings : forall k xs ys, 0 < k -> Forall (fun x => (x < 256 ^ N.of_nat k)%N) xs -> Forall (fun x => (x < 256 ^ N.of_nat k)%N) ys ->
  vector_bytes k xs = vector_bytes k ys -> xs = ys.
Proof. apply vector_bytes_inj. Qed.
(** A set of byte strings used through the encoding gives the same answers as a set of the keys themselves. *)
Fixpoint bytes_eqb (a b : list N) : bool := match a, b with [], [] => true | x :: a', y :: b' => N.eqb x y && bytes_eqb a' b' | _, _ => false end.
Lemma bytes_eqb_ok : forall a b, bytes_eqb a b = true <-> a = b.
Proof.
  induction a as [|x a IH]; intros [|y b]; cbn; split; try discriminate; auto.
  - intros H. apply andb_true_iff in H. destruct H as [H1 H2]. apply N.eqb_eq in H1. apply IH in H2. congruence.
  - intros H. injection H as -> ->. rewrite N.eqb_refl. apply IH. auto.
Qed.
Theorem C40_trie_of_encodings : forall t (veqb : val -> val -> bool) vs v, (forall a b, veqb a b = true <-> a = b) -> small t -> Forall (has_type t) vs -> has_type t v ->
  exists bss bs, omap (to_ptrie t) vs = Some bss /\ to_ptrie t v = Some bs /\ ts_exists bytes_eqb bss bs = ts_exists veqb vs v /\
    fst (ts_insert bytes_eqb bss bs) = (if ts_exists veqb vs v then bss else bss ++ [bs]) /\
    forall i k, nth_error vs i = Some k -> exists b, ts_at bss i = Some b /\ unpack t b = Some k.
Proof.
  intros t veqb vs v VE HS HV HT. destruct (C40_decode_encode t v HS HT) as (bs & B1 & _ & B2 & _).
  assert (G : exists bss, omap (to_ptrie t) vs = Some bss /\ tr_index bytes_eqb bss bs = tr_index veqb vs v /\ forall i k, nth_error vs i = Some k -> exists b, nth_error bss i = Some b /\ unpack t b = Some k).
  { induction HV as [|x vs Hx HV IH].
    - exists []. split; auto. split; auto. intros [|i] k H; discriminate.
    - destruct IH as (bss & E1 & E2 & E3). destruct (C40_decode_encode t x HS Hx) as (bx & X1 & _ & X2 & _). exists (bx :: bss). cbn [omap]. rewrite X1. cbn [obind]. rewrite E1. cbn [obind].
      split; auto. split.
      + cbn [tr_index]. rewrite E2. destruct (veqb x v) eqn:Q.
        * apply VE in Q. subst x. rewrite X1 in B1. injection B1 as ->. assert (Z : bytes_eqb bs bs = true) by (apply bytes_eqb_ok; auto). rewrite Z. auto.
        * destruct (bytes_eqb bx bs) eqn:Z; auto. apply bytes_eqb_ok in Z. subst bx. rewrite X2 in B2. injection B2 as ->. assert (veqb v v = true) by (apply VE; auto). congruence.
      + intros [|i] k H; cbn in *; [injection H as <-; eauto|eauto]. }
  destruct G as (bss & E1 & E2 & E3). exists bss, bs. split; auto. split; auto. unfold ts_exists, ts_insert, ts_at. rewrite E2. split; auto. split; auto.
  destruct (tr_index veqb vs v); auto.
Qed.
Print Assumptions C40_decode_encode.
Print Assumptions C40_injective.
Print Assumptions C40_reserved_size.
Print Assumptions C40_vectors_and_strings.
Print Assumptions C40_trie_of_encodings.

(** std::tuple<uint32_t, std::vector<uint16_t>, std::variant<uint8_t, std::vector<uint8_t>>>. *)
Definition c40_ty : ty := TTuple [TInt 4; TVec (TInt 2); TVariant [TInt 1; TVec (TInt 1)]].
Definition c40_val : val := VTuple [VInt 70000; VVec [VInt 1; VInt 515]; VVariant 1 (VVec [VInt 9])].
Example C40_case : small c40_ty /\ has_type c40_ty c40_val /\ accepted_type c40_ty /\
  to_ptrie c40_ty c40_val = Some [112; 17; 1; 0;  2; 0; 0; 0; 0; 0; 0; 0;  1; 0; 3; 2;  1;  1; 0; 0; 0; 0; 0; 0; 0;  9]%N /\
  option_map (unpack c40_ty) (to_ptrie c40_ty c40_val) = Some (Some c40_val).
Proof.
  split; [cbn; lia|]. split.
  - apply ht_tuple. repeat constructor. eapply ht_variant with (t := TVec (TInt 1)); [reflexivity|]. repeat constructor.
  - split; [cbn; ands; auto; discriminate|]. split; vm_compute; reflexivity.
Qed.
