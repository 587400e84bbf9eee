(** Proofs about the reduction of pushdown systems. *)
From Coq Require Import Relations List Arith Lia Bool ZArith Sorting.Sorted.
From Verif Require Import Base BaseFacts Spec ShortSpec ReducerSpec PdaModel PdaProof StoreProof ContainersModel ContainersSpec ContainersProof SolverModel PostShortProof ReducerModel.
Import ListNotations.

(** * Sorted vectors *)
Lemma ssorted_app : forall a b, ssorted (a ++ b) <-> ssorted a /\ ssorted b /\ forall x y, In x a -> In y b -> x < y.
Proof.
  induction a as [|x a IH]; intros b; cbn.
  - split; [intros H; split; [constructor|split; auto; intros ? ? []]|tauto].
  - rewrite !ssorted_cons, IH. split.
    + intros [(H1 & H2 & H3) H4]. split; [split; auto; intros; apply H4, in_or_app; auto|]. split; auto. intros x0 y [<-|Hx] Hy; auto. apply H4, in_or_app; auto.
    + intros ([H1 H2] & H3 & H4). split; [split; auto|]. intros y Hy. apply in_app_or in Hy. destruct Hy; auto.
Qed.
Lemma split_lt : forall s l, ssorted l -> exists a b, take_while (fun x => Nat.ltb x s) l = a /\ drop_while (fun x => Nat.ltb x s) l = b /\ l = a ++ b /\
  (forall x, In x a -> x < s) /\ (forall x, In x b -> s <= x) /\ ssorted a /\ ssorted b.
Proof.
  intros s l. induction l as [|x l IH]; intros H; cbn.
  - exists [], []. do 3 (split; [reflexivity|]). split; [intros ? []|]. split; [intros ? []|]. split; constructor.
  - pose proof H as H'. apply ssorted_cons in H. destruct H as [H1 H2]. destruct (Nat.ltb_spec x s) as [L|L].
    + destruct (IH H1) as (a & b & -> & -> & E & A1 & A2 & A3 & A4). eexists _, _. split; [reflexivity|]. split; [reflexivity|]. split; [cbn; f_equal; auto|].
      split; [intros y [<-|Hy]; auto|]. split; auto. split; auto. apply ssorted_cons. split; auto. intros y Hy. apply H2. rewrite E. apply in_or_app; auto.
    + exists [], (x :: l). do 3 (split; [reflexivity|]). split; [intros ? []|]. split; [intros y [<-|Hy]; auto; apply H2 in Hy; lia|]. split; [constructor|auto].
Qed.

(** What an insertion of the elements of [ss] into [it] must do: [r] is the union and the flag tells whether it is larger. *)
Definition union_ok (it ss r : list nat) (b : bool) : Prop :=
  ssorted r /\ (forall x, In x r <-> In x it \/ In x ss) /\ (if b then length it < length r else r = it).

Lemma ins_loop_ok : forall ss it, ssorted it -> ssorted ss -> union_ok it ss (fst (ins_loop it ss)) (snd (ins_loop it ss)).
Proof.
  induction ss as [|s ss IH]; intros it H1 H2; cbn [ins_loop].
  - split; [auto|]. split; [intros x; cbn; tauto|reflexivity].
  - apply ssorted_cons in H2. destruct H2 as [H2 H3]. destruct (split_lt s it H1) as (a & b & -> & -> & E & A1 & A2 & A3 & A4).
    assert (G : forall b' (bo : bool), ssorted b' -> (forall x, In x b' <-> In x b \/ x = s) -> (forall x, In x b' -> s <= x) -> (if bo then length b < length b' else b' = b) ->
              union_ok it (s :: ss) (a ++ fst (ins_loop b' ss)) (bo || snd (ins_loop b' ss))).
    { intros b' bo B1 B2 B3 B4. destruct (IH b' B1 H2) as (I1 & I2 & I3). split; [|split].
      - apply ssorted_app. split; auto. split; auto. intros x y Hx Hy. apply A1 in Hx. apply I2 in Hy. destruct Hy as [Hy|Hy]; [apply B3 in Hy; lia|apply H3 in Hy; lia].
      - intros x. rewrite in_app_iff, I2, B2, E, in_app_iff. cbn. intuition.
      - rewrite E. destruct bo; cbn [orb].
        + rewrite !app_length. destruct (snd (ins_loop b' ss)); [lia|rewrite I3; lia].
        + subst b'. destruct (snd (ins_loop b ss)); [rewrite !app_length; lia|rewrite I3; auto]. }
    destruct b as [|y b].
    + specialize (G [s] true). cbn [orb] in G. apply G; [repeat constructor| | |cbn; lia]; intros x; cbn; intuition lia.
    + destruct (Nat.eqb_spec y s) as [->|Hn].
      * apply (G (s :: b) false); auto. intros x. cbn. intuition.
      * specialize (G (s :: y :: b) true). cbn [orb] in G. apply G; [|intros x; cbn; intuition| |cbn; lia].
        -- apply ssorted_cons. split; auto. intros z Hz. assert (Z1 := A2 z Hz). destruct Hz as [<-|Hz]; [lia|]. apply ssorted_cons in A4. destruct A4 as [_ A4].
           apply A4 in Hz. assert (s <= y) by (apply A2; cbn; auto). lia.
        -- intros x [<-|Hx]; auto.
Qed.
Lemma noop_loop_ok : forall ss it, ssorted it -> ssorted ss -> union_ok it ss (fst (noop_loop it ss)) (snd (noop_loop it ss)).
Proof.
  induction ss as [|s ss IH]; intros it H1 H2; cbn [noop_loop].
  - split; [auto|]. split; [intros x; cbn; tauto|reflexivity].
  - apply ssorted_cons in H2. destruct H2 as [H2 H3]. destruct (split_lt s it H1) as (a & b & -> & -> & E & A1 & A2 & A3 & A4).
    assert (G : forall b' (bo : bool), ssorted b' -> (forall x, In x b' -> s < x) -> (forall x, In x b <-> In x b' \/ (if bo then False else x = s)) -> (if bo then b' = b else b = s :: b') ->
              union_ok it (s :: ss) (a ++ s :: fst (noop_loop b' ss)) (bo || snd (noop_loop b' ss))).
    { intros b' bo B1 B2 B3 B4. destruct (IH b' B1 H2) as (I1 & I2 & I3). split; [|split].
      - apply ssorted_app. split; auto. split.
        + apply ssorted_cons. split; auto. intros y Hy. apply I2 in Hy. destruct Hy; auto.
        + intros x y Hx Hy. apply A1 in Hx. destruct Hy as [<-|Hy]; auto. apply I2 in Hy. destruct Hy as [Hy|Hy]; [apply B2 in Hy; lia|apply H3 in Hy; lia].
      - intros x. rewrite in_app_iff. cbn [In]. rewrite I2, E, in_app_iff, B3. cbn. destruct bo; intuition.
      - rewrite E. destruct bo; cbn [orb].
        + subst b'. rewrite !app_length. cbn. destruct (snd (noop_loop b ss)); [lia|rewrite I3; lia].
        + subst b. destruct (snd (noop_loop b' ss)); [rewrite !app_length; cbn; lia|rewrite I3; auto]. }
    destruct b as [|y b].
    + specialize (G [] true). cbn [orb] in G. apply G; auto; intros x; cbn; tauto.
    + apply ssorted_cons in A4. destruct A4 as [A4 A5]. destruct (Nat.eqb_spec y s) as [->|Hn].
      * apply (G b false); auto. intros x. cbn. intuition.
      * specialize (G (y :: b) true). cbn [orb] in G. assert (s < y) by (assert (s <= y) by (apply A2; cbn; auto); lia). apply G; auto.
        -- apply ssorted_cons; auto.
        -- intros x [<-|Hx]; auto. apply A5 in Hx. lia.
        -- intros x. tauto.
Qed.
Lemma fs_loop_ok : forall f lid pid, ssorted lid -> ssorted pid -> length pid <= f -> ssorted (fs_loop f lid pid) /\ forall x, In x (fs_loop f lid pid) <-> In x lid \/ In x pid.
Proof.
  induction f as [|f IH]; intros lid pid H1 H2 L; destruct pid as [|p pid]; cbn in L; try lia; try (cbn; split; auto; intros x; cbn; tauto). cbn [fs_loop].
  destruct (split_lt p lid H1) as (a & b & -> & -> & E & A1 & A2 & A3 & A4). assert (H2' := H2). apply ssorted_cons in H2'. destruct H2' as [H3 H4].
  destruct b as [|y b].
  - rewrite app_nil_r in E. subst lid. split.
    + apply ssorted_app. split; auto. split; auto. intros x z Hx [<-|Hz]; auto. apply A1 in Hx. apply H4 in Hz. lia.
    + intros x. rewrite in_app_iff. tauto.
  - destruct (Nat.eqb_spec y p) as [->|Hn].
    + destruct (IH (p :: b) pid) as [I1 I2]; auto; [lia|]. split.
      * apply ssorted_app. split; auto. split; auto. intros x z Hx Hz. apply A1 in Hx. apply I2 in Hz. destruct Hz as [Hz|Hz]; [apply A2 in Hz; lia|apply H4 in Hz; lia].
      * intros x. rewrite in_app_iff, I2, E, in_app_iff. cbn. intuition.
    + assert (Ly : p < y) by (assert (p <= y) by (apply A2; cbn; auto); lia). destruct (split_lt y (p :: pid) H2) as (c & d & Hc & Hd & E2 & C1 & C2 & C3 & C4).
      rewrite Hc, Hd. assert (Hc2 : c <> []). { rewrite <- Hc. cbn. destruct (Nat.ltb_spec p y); [discriminate|lia]. }
      destruct (IH (c ++ y :: b) d) as [I1 I2]; auto.
      * apply ssorted_app. split; auto. split; auto. intros x z Hx Hz. apply C1 in Hx. apply ssorted_cons in A4. destruct Hz as [<-|Hz]; auto. apply A4 in Hz. lia.
      * assert (length (p :: pid) = length c + length d) by (rewrite E2, app_length; auto). cbn in H. destruct c; [congruence|cbn in H; lia].
      * assert (Z : forall x, In x (p :: pid) <-> In x c \/ In x d) by (intros x; rewrite E2, in_app_iff; tauto). split.
        -- apply ssorted_app. split; auto. split; auto. intros x z Hx Hz. apply A1 in Hx. apply I2 in Hz. rewrite in_app_iff in Hz.
           assert (p <= z); [|lia]. destruct Hz as [[Hz|Hz]|Hz]; [|apply A2; auto|]; (assert (In z (p :: pid)) as [<-|Hz2] by (apply Z; auto); [lia|apply H4 in Hz2; lia]).
        -- intros x. rewrite in_app_iff, I2, in_app_iff, E, in_app_iff, Z. tauto.
Qed.

(** Vectors of labels below [all]. *)
Definition lvec (all : nat) (v : list nat) : Prop := ssorted v /\ forall l, In l v -> l < all.
Lemma lvec_length : forall all v, lvec all v -> length v <= all.
Proof.
  intros all v [H1 H2]. rewrite <- (seq_length all 0). apply NoDup_incl_length; [apply ssorted_NoDup; auto|]. intros x Hx. apply in_seq. apply H2 in Hx. lia.
Qed.
Lemma lvec_sub_length : forall all a b, lvec all a -> lvec all b -> incl a b -> length a <= length b.
Proof. intros all a b [H1 _] _ H. apply NoDup_incl_length; auto. apply ssorted_NoDup; auto. Qed.
Lemma lvec_eq : forall a b, ssorted a -> ssorted b -> (forall x, In x a <-> In x b) -> a = b.
Proof.
  induction a as [|x a IH]; intros [|y b] H1 H2 H; auto.
  - exfalso. apply (H y). cbn; auto.
  - exfalso. apply (H x). cbn; auto.
  - apply ssorted_cons in H1, H2. destruct H1 as [H1 A], H2 as [H2 B].
    assert (x = y). { assert (X : In x (y :: b)) by (apply H; cbn; auto). assert (Y : In y (x :: a)) by (apply H; cbn; auto). destruct X as [X|X]; auto. destruct Y as [Y|Y]; auto. apply A in Y. apply B in X. lia. }
    subst y. f_equal. apply IH; auto. intros z. split; intros Hz.
    + assert (Z : In z (x :: b)) by (apply H; cbn; auto). destruct Z as [<-|Z]; auto. apply A in Hz. lia.
    + assert (Z : In z (x :: a)) by (apply H; cbn; auto). destruct Z as [<-|Z]; auto. apply B in Hz. lia.
Qed.
Lemma full_lvec : forall all v, lvec all v -> length v = all -> forall l, l < all -> In l v.
Proof. intros all v [H1 H2] H l Hl. eapply full_vec; eauto. Qed.

(** [b] grew out of [a]; the flag tells whether it is larger. *)
Definition grow (all : nat) (a b : list nat) (f : bool) : Prop := lvec all b /\ incl a b /\ (if f then length a < length b else b = a).
Lemma union_grow : forall all it ss r b, lvec all it -> lvec all ss -> union_ok it ss r b -> grow all it r b /\ incl ss r.
Proof.
  intros all it ss r b [_ H1] [_ H2] (U1 & U2 & U3). split; [split; [|split]|]; auto.
  - split; auto. intros l Hl. apply U2 in Hl. destruct Hl; auto.
  - intros x Hx. apply U2; auto.
  - intros x Hx. apply U2; auto.
Qed.
Lemma grow_refl : forall all a, lvec all a -> grow all a a false.
Proof. intros all a H. split; auto. split; auto. intros x; auto. Qed.
Lemma grow_full : forall all a b, lvec all a -> lvec all b -> length a <> all -> length b = all -> grow all a b true /\ forall l, l < all -> In l b.
Proof.
  intros all a b H1 H2 N L. assert (F := full_lvec all b H2 L). split; auto. split; auto. split; [intros x Hx; apply F, H1; auto|]. assert (Z := lvec_length _ _ H1). lia.
Qed.

Lemma forward_stack_ok : forall all stk prev, lvec all stk -> lvec all prev ->
  grow all stk (fst (forward_stack stk prev all)) (snd (forward_stack stk prev all)) /\ incl prev (fst (forward_stack stk prev all)).
Proof.
  intros all stk prev H1 H2. unfold forward_stack. destruct (Nat.eqb_spec (length stk) all) as [E|E]; cbn [fst snd].
  - rewrite Nat.eqb_refl. cbn. split; [apply grow_refl; auto|]. intros x Hx. eapply full_lvec; eauto. apply H2; auto.
  - destruct (Nat.eqb_spec (length prev) all) as [E2|E2]; cbn [fst snd].
    + destruct (grow_full all stk prev) as [G F]; auto. split; [|intros x; auto]. destruct (Nat.eqb_spec (length prev) (length stk)); [congruence|auto].
    + destruct (fs_loop_ok (length prev) stk prev) as [F1 F2]; auto; [apply H1|apply H2|]. set (r := fs_loop _ _ _) in *.
      assert (LV : lvec all r). { split; auto. intros l Hl. apply F2 in Hl. destruct Hl; [apply H1|apply H2]; auto. }
      assert (I1 : incl stk r) by (intros x Hx; apply F2; auto). split; [|intros x Hx; apply F2; auto]. split; auto. split; auto.
      assert (Z := lvec_sub_length all stk r H1 LV I1). destruct (Nat.eqb_spec (length r) (length stk)) as [E3|E3]; cbn; [|lia].
      apply lvec_eq; auto; [apply H1|]. intros x. split; auto. apply NoDup_length_incl; auto; [apply ssorted_NoDup, H1|lia].
Qed.
Lemma active_loop_ok : forall ts rit x, ssorted ts -> ssorted rit -> In x ts -> In x rit -> active_loop ts rit = true.
Proof.
  induction ts as [|s ts IH]; intros rit x H1 H2 Hx Hr; [destruct Hx|]. cbn [active_loop]. apply ssorted_cons in H1. destruct H1 as [H1 H3].
  destruct (split_lt s rit H2) as (a & b & _ & -> & E & A1 & A2 & A3 & A4). assert (Sx : s <= x) by (destruct Hx as [<-|Hx]; auto; apply H3 in Hx; lia).
  assert (Hb : In x b). { rewrite E in Hr. apply in_app_or in Hr. destruct Hr as [Hr|Hr]; auto. apply A1 in Hr. lia. }
  destruct b as [|y b]; [destruct Hb|]. destruct (Nat.eqb_spec y s) as [|Hn]; auto. apply (IH _ x); auto. destruct Hx as [<-|Hx]; auto. exfalso.
  destruct Hb as [Hb|Hb]; [congruence|]. apply ssorted_cons in A4. destruct A4 as [_ A4]. apply A4 in Hb. assert (s <= y) by (apply A2; cbn; auto). lia.
Qed.
Lemma ssorted_ksorted : forall v, ssorted v <-> ksorted nat Nat.ltb v.
Proof.
  induction v as [|x v IH]; [split; constructor|]. rewrite ssorted_cons, ksorted_cons, IH. split; intros [H1 H2]; split; auto; intros y Hy; apply Nat.ltb_lt; auto.
Qed.
Lemma emplace_grow : forall all v k, lvec all v -> k < all -> exists v' i b, vset_emplace Nat.ltb Nat.eqb v k = Some (v', (i, b)) /\ grow all v v' b /\ In k v'.
Proof.
  intros all v k [H1 H2] Hk. destruct (vset_emplace_spec nat Nat.ltb Nat.eqb nat_total_order v k) as (v' & i & b & E & S1 & I1 & _ & B1 & L1).
  { apply ssorted_ksorted. auto. }
  exists v', i, b. split; auto. apply ssorted_ksorted in S1. assert (LV : lvec all v') by (split; auto; intros l Hl; apply I1 in Hl; destruct Hl as [->|Hl]; auto).
  split; [|apply I1; auto]. split; auto. split; [intros x Hx; apply I1; auto|]. destruct b; [lia|]. apply lvec_eq; auto. intros x. rewrite I1. split; auto. intros [->|]; auto.
  destruct (in_dec Nat.eq_dec k v); auto. exfalso. apply B1 in n. discriminate.
Qed.

(** * Search in the graph of states *)
Definition sn (seen : list bool) (q : nat) : Prop := nth_error seen q = Some true.
Definition unseen (seen : list bool) : nat := length (filter negb seen).
Inductive greach (N : nat -> nat -> Prop) : nat -> nat -> Prop :=
| gr_refl : forall q, greach N q q
| gr_step : forall q q1 q2, N q q1 -> greach N q1 q2 -> greach N q q2.
Lemma greach_snoc : forall N q q1 q2, greach N q q1 -> N q1 q2 -> greach N q q2.
Proof. intros N q q1 q2 H. induction H; intros Hn; econstructor; eauto. constructor. Qed.

Lemma unseen_upd : forall seen q, nth_error seen q = Some false -> unseen seen = S (unseen (upd seen q true)).
Proof.
  induction seen as [|b seen IH]; intros [|q] H; try discriminate; cbn in *.
  - injection H as ->. reflexivity.
  - unfold unseen in *. cbn [filter]. destruct b; cbn; rewrite (IH q H); auto.
Qed.
Lemma sn_upd : forall seen q x, q < length seen -> (sn (upd seen q true) x <-> x = q \/ sn seen x).
Proof.
  intros seen q x L. unfold sn. destruct (Nat.eq_dec q x) as [->|Hn].
  - rewrite nth_error_upd_eq by auto. tauto.
  - rewrite nth_error_upd_neq by auto. split; auto. intros [->|]; congruence.
Qed.
Lemma visit_spec : forall ns waiting seen, (forall q, In q ns -> q < length seen) ->
  exists new seen', visit waiting seen ns = Some (waiting ++ new, seen') /\ length seen' = length seen /\ (forall q, sn seen' q <-> sn seen q \/ In q ns) /\
    (forall q, In q new -> In q ns) /\ (forall q, sn seen' q -> sn seen q \/ In q new) /\ length new + unseen seen' = unseen seen.
Proof.
  induction ns as [|q ns IH]; intros waiting seen H; cbn [visit].
  - exists [], seen. rewrite app_nil_r. split; auto. split; auto. split; [cbn; tauto|]. split; auto.
  - assert (Lq : q < length seen) by (apply H; cbn; auto). destruct (nth_error_ex _ _ _ Lq) as [b Eb]. rewrite Eb. cbn [obind]. destruct b.
    + destruct (IH waiting seen) as (new & seen' & E & L & S1 & S2 & S3 & S4); [intros; apply H; cbn; auto|]. exists new, seen'. split; auto. split; auto. split.
      * intros x. rewrite S1. cbn. split; [tauto|]. intros [|[<-|]]; auto.
      * split; [cbn; auto|]. split; auto.
    + destruct (IH (waiting ++ [q]) (upd seen q true)) as (new & seen' & E & L & S1 & S2 & S3 & S4); [rewrite upd_length; intros; apply H; cbn; auto|].
      exists (q :: new), seen'. rewrite <- app_assoc in E. cbn in E. rewrite upd_length in L. split; auto. split; auto. split.
      * intros x. rewrite S1, sn_upd by auto. cbn. intuition.
      * split; [cbn; intros x [<-|Hx]; auto|]. split.
        -- intros x Hx. apply S3 in Hx. rewrite sn_upd in Hx by auto. cbn. intuition.
        -- rewrite (unseen_upd _ _ Eb). cbn. lia.
Qed.
Section Graph.
  Variables (neigh : nat -> option (list nat)) (n : nat).
  Hypothesis neigh_ok : forall q, q < n -> exists ns, neigh q = Some ns /\ forall x, In x ns -> x < n.
  Definition nb (q x : nat) : Prop := exists ns, neigh q = Some ns /\ In x ns.
  Lemma graph_loop_spec : forall fuel waiting seen, length seen = n -> (forall q, In q waiting -> sn seen q) ->
    (forall q x, sn seen q -> nb q x -> In q waiting \/ sn seen x) -> length waiting + unseen seen <= fuel ->
    exists seen', graph_loop neigh fuel waiting seen = Some seen' /\ length seen' = n /\ (forall q, sn seen q -> sn seen' q) /\
      (forall q x, sn seen' q -> nb q x -> sn seen' x) /\ (forall q, sn seen' q -> sn seen q \/ exists q0, In q0 waiting /\ greach nb q0 q).
  Proof.
    induction fuel as [|f IH]; intros waiting seen L H1 H2 HF; destruct waiting as [|el waiting]; cbn [graph_loop]; cbn [length] in HF.
    - exists seen. split; auto. split; auto. split; auto. split; auto. intros q x Hq Hx. destruct (H2 q x Hq Hx) as [[]|]; auto.
    - lia.
    - exists seen. split; auto. split; auto. split; auto. split; auto. intros q x Hq Hx. destruct (H2 q x Hq Hx) as [[]|]; auto.
    - assert (Le : el < n). { rewrite <- L. assert (Z : sn seen el) by (apply H1; cbn; auto). eapply nth_error_lt; eauto. }
      destruct (neigh_ok el Le) as (ns & En & Hns). rewrite En. cbn [obind]. destruct (visit_spec ns waiting seen) as (new & seen1 & E1 & L1 & S1 & S2 & S3 & S4); [rewrite L; auto|].
      rewrite E1. cbn [obind fst snd]. destruct (IH (waiting ++ new) seen1) as (seen' & E & L' & K1 & K2 & K3).
      + congruence.
      + intros q Hq. apply S1. apply in_app_or in Hq. destruct Hq as [Hq|Hq]; [left; apply H1; cbn; auto|right; auto].
      + intros q x Hq Hx. destruct (S3 q Hq) as [Hq2|Hq2]; [|left; apply in_or_app; auto]. destruct (H2 q x Hq2 Hx) as [[<-|Hw]|Hs].
        * right. apply S1. right. destruct Hx as (ns' & En' & Hin). congruence.
        * left. apply in_or_app; auto.
        * right. apply S1; auto.
      + rewrite app_length. lia.
      + exists seen'. split; auto. split; auto. split; [intros q Hq; apply K1, S1; auto|]. split; auto. intros q Hq. destruct (K3 q Hq) as [Hs|(q0 & Hq0 & Hg)].
        * apply S1 in Hs. destruct Hs as [Hs|Hs]; auto. right. exists el. split; [cbn; auto|]. econstructor; [exists ns; eauto|constructor].
        * apply in_app_or in Hq0. right. destruct Hq0 as [Hq0|Hq0]; [exists q0; cbn; auto|]. exists el. split; [cbn; auto|]. econstructor; [exists ns; eauto|auto].
  Qed.
  Lemma graph_search_spec : forall start, start < n -> exists seen, graph_search neigh n start = Some seen /\ length seen = n /\ forall q, sn seen q <-> greach nb start q.
  Proof.
    intros start Ls. unfold graph_search. destruct (Nat.ltb_spec start n); [|lia]. set (s0 := upd (repeat false n) start true).
    assert (L0 : length (repeat false n) = n) by apply repeat_length.
    assert (S0 : forall q, sn s0 q <-> q = start). { intros q. unfold s0. rewrite sn_upd by lia. split; auto. intros [|Hq]; auto. exfalso. unfold sn in Hq. apply nth_error_In, repeat_spec in Hq. discriminate. }
    assert (U0 : unseen (repeat false n) = n). { clear. induction n; cbn in *; auto. }
    assert (U1 : S (unseen s0) = n). { unfold s0. rewrite <- unseen_upd; auto. rewrite nth_error_repeat; auto. }
    destruct (graph_loop_spec n [start] s0) as (seen & E & L & K1 & K2 & K3).
    - unfold s0. rewrite upd_length. auto.
    - intros q [<-|[]]. apply S0; auto.
    - intros q x Hq _. apply S0 in Hq. subst q. cbn; auto.
    - cbn. lia.
    - exists seen. split; auto. split; auto. intros q. split.
      + intros Hq. destruct (K3 q Hq) as [Hs|(q0 & [<-|[]] & Hg)]; auto. apply S0 in Hs. subst q. constructor.
      + intros Hg. assert (Z : sn seen start) by (apply K1, S0; auto). clear S0 U1 K1 K3 E. clearbody s0. clear H Ls. induction Hg as [q|q q1 q2 Hn Hg IHg]; auto. apply IHg. eapply K2; eauto.
  Qed.
End Graph.

(** * Shrinking rule stores *)
Definition lsub (all : nat) (ls' ls : labels) : Prop := lrep all ls' /\ (wild ls' = true -> wild ls = true) /\ forall l, matches all ls' l -> matches all ls l.
Inductive shrunk (all : nat) : list (rule * labels) -> list (rule * labels) -> Prop :=
| sh_nil : shrunk all [] []
| sh_drop : forall x xs ys, shrunk all xs ys -> shrunk all (x :: xs) ys
| sh_keep : forall r ls ls' xs ys, lsub all ls' ls -> shrunk all xs ys -> shrunk all ((r, ls) :: xs) ((r, ls') :: ys).
Definition lreps (all : nat) (xs : list (rule * labels)) : Prop := forall r ls, In (r, ls) xs -> lrep all ls.

Lemma lsub_refl : forall all ls, lrep all ls -> lsub all ls ls.
Proof. intros. split; auto. Qed.
Lemma lsub_trans : forall all a b c, lsub all a b -> lsub all b c -> lsub all a c.
Proof. intros all a b c (A1 & A2 & A3) (B1 & B2 & B3). split; auto. Qed.
Lemma shrunk_refl : forall all xs, lreps all xs -> shrunk all xs xs.
Proof. induction xs as [|[r ls] xs IH]; intros H; constructor; [apply lsub_refl, (H r); cbn; auto|]. apply IH. intros r' ls' Hin. apply (H r'); cbn; auto. Qed.
Lemma shrunk_trans : forall all xs ys, shrunk all xs ys -> forall zs, shrunk all ys zs -> shrunk all xs zs.
Proof.
  intros all xs ys H. induction H as [|x xs ys H IH|r ls ls' xs ys HL H IH]; intros zs HZ; auto; [constructor; auto|].
  inversion HZ as [|? ? ? H2|? ? ls2 ? ? L2 H2]; subst; [apply sh_drop; auto|apply sh_keep; auto]. eapply lsub_trans; eauto.
Qed.
Lemma shrunk_In : forall all xs ys, shrunk all xs ys -> forall r ls', In (r, ls') ys -> exists ls, In (r, ls) xs /\ lsub all ls' ls.
Proof.
  intros all xs ys H. induction H as [|x xs ys H IH|r ls ls' xs ys HL H IH]; intros r0 ls0 Hin; [destruct Hin| |].
  - destruct (IH _ _ Hin) as (l & H1 & H2). exists l. cbn; auto.
  - destruct Hin as [E|Hin]; [injection E as <- <-; exists ls; cbn; auto|]. destruct (IH _ _ Hin) as (l & H1 & H2). exists l. cbn; auto.
Qed.
Lemma shrunk_sorted : forall all xs ys, shrunk all xs ys -> rsorted xs -> rsorted ys.
Proof.
  intros all xs ys H. induction H as [|x xs ys H IH|r ls ls' xs ys HL H IH]; intros HS; auto; apply rsorted_cons in HS; destruct HS as [HS1 HS2]; auto.
  apply rsorted_cons. split; auto. intros [r0 l0] Hin. destruct (shrunk_In _ _ _ H _ _ Hin) as (l & H1 & _). apply (HS2 _ H1).
Qed.
Lemma shrunk_lreps : forall all xs ys, shrunk all xs ys -> lreps all ys.
Proof. intros all xs ys H r ls Hin. destruct (shrunk_In _ _ _ H _ _ Hin) as (l & _ & L & _). auto. Qed.
Lemma shrunk_filter : forall all f xs, lreps all xs -> shrunk all xs (filter f xs).
Proof.
  induction xs as [|[r ls] xs IH]; intros H; cbn; [constructor|]. assert (H' : lreps all xs) by (intros r' ls' Hin; apply (H r'); cbn; auto).
  destruct (f (r, ls)); [apply sh_keep; auto|apply sh_drop; auto]. apply lsub_refl, (H r). cbn; auto.
Qed.
Lemma shrunk_nil : forall all xs, shrunk all xs [].
Proof. induction xs; constructor; auto. Qed.

Record wfr (P : pda) : Prop := { wfr_wf : wf_pda' P; wfr_lrep : forall p, lreps (pd_nlab P) (rules_at P p) }.
Record red (P P' : pda) : Prop := { rd_n : pd_n P' = pd_n P; rd_nlab : pd_nlab P' = pd_nlab P; rd_rules : forall p, shrunk (pd_nlab P) (rules_at P p) (rules_at P' p); rd_pres : forall q, incl (pres_at P' q) (pres_at P q); rd_wf : wfr P' }.
Lemma red_refl : forall P, wfr P -> red P P.
Proof. intros P W. constructor; auto; [intros p; apply shrunk_refl; apply W|intros q x; auto]. Qed.
Lemma red_trans : forall P1 P2 P3, red P1 P2 -> red P2 P3 -> red P1 P3.
Proof.
  intros P1 P2 P3 A B. constructor; [rewrite (rd_n _ _ B), (rd_n _ _ A); auto|rewrite (rd_nlab _ _ B), (rd_nlab _ _ A); auto| | |apply B].
  - intros p. eapply shrunk_trans; [apply A|]. rewrite <- (rd_nlab _ _ A). apply B.
  - intros q x Hx. apply (rd_pres _ _ A), (rd_pres _ _ B). auto.
Qed.
(** The rules of a pushdown system, one by one. *)
Definition has (P : pda) (s : srule * Z) : Prop := pda_wrules P (fst s) (snd s).
Lemma has_at : forall P s, has P s <-> exists r ls, In (r, ls) (rules_at P (s_from (fst s))) /\ matches (pd_nlab P) ls (s_pre (fst s)) /\ s_to (fst s) = r_to r /\ s_op (fst s) = sop_of r /\ snd s = r_w r.
Proof. intros. unfold has. apply pda_wrules_at. Qed.
Lemma red_has : forall P P' s, red P P' -> has P' s -> has P s.
Proof.
  intros P P' s HR H. apply has_at in H. destruct H as (r & ls & Hin & Hm & H). destruct (shrunk_In _ _ _ (rd_rules _ _ HR _) _ _ Hin) as (l & H1 & _ & _ & H2).
  apply has_at. exists r, l. split; auto. split; auto. apply H2. rewrite <- (rd_nlab _ _ HR). auto.
Qed.
Lemma has_lt : forall P s, wfr P -> has P s -> s_from (fst s) < pd_n P /\ s_to (fst s) < pd_n P /\ s_pre (fst s) < pd_nlab P.
Proof.
  intros P s W H. apply has_at in H. destruct H as (r & ls & Hin & Hm & H & _). split; [eapply In_rules_lt; eauto|]. split; [rewrite H; eapply (wf'_to _ (wfr_wf _ W)); eauto|].
  eapply lrep_matches_lt; eauto. eapply wfr_lrep; eauto.
Qed.
Lemma lrep_wf : forall all ls, lrep all ls -> wf_labels all ls.
Proof. intros all ls [H _]. apply label_vec_ssorted in H. auto. Qed.

(** Stores with the same predecessor index and shrunk rules. *)
Lemma red_same_pre : forall P P', wfr P -> pd_n P' = pd_n P -> pd_nlab P' = pd_nlab P -> (forall p, pres_at P' p = pres_at P p) ->
  (forall p, shrunk (pd_nlab P) (rules_at P p) (rules_at P' p)) -> red P P'.
Proof.
  intros P P' W Hn Hl HP HR. constructor; auto; [intros q; rewrite HP; intros x; auto|]. destruct W as [W WL]. constructor; [|rewrite Hl; intros p; eapply shrunk_lreps; apply HR].
  assert (HI : forall p r ls, In (r, ls) (rules_at P' p) -> exists ls0, In (r, ls0) (rules_at P p) /\ lsub (pd_nlab P) ls ls0) by (intros p r ls Hin; eapply shrunk_In; eauto).
  constructor.
  - intros p r ls Hin. destruct (HI _ _ _ Hin) as (l & H1 & _). rewrite Hn. eapply (wf'_to _ W); eauto.
  - intros p r ls Hin. destruct (HI _ _ _ Hin) as (l & H1 & _). rewrite HP. eapply (wf'_pre _ W); eauto.
  - intros q p. rewrite HP, Hn. apply (wf'_pre_lt _ W).
  - intros p. eapply shrunk_sorted; [apply HR|apply (wf'_rules _ W)].
  - intros p. rewrite HP. apply (wf'_pre_sorted _ W).
  - intros p r ls Hin. destruct (HI _ _ _ Hin) as (l & H1 & H2 & _). rewrite Hl. apply lrep_wf. auto.
  - intros p r ls Hin. destruct (HI _ _ _ Hin) as (l & H1 & _). rewrite Hl. eapply (wf'_opl _ W); eauto.
Qed.

Lemma clear_red : forall P s, wfr P -> s < pd_n P -> exists P', clear_state P s = Some P' /\ red P P' /\
  (forall p, rules_at P' p = if Nat.eqb p s then [] else filter (keep s) (rules_at P p)) /\ (forall q, pres_at P' q = if Nat.eqb q s then [] else pres_at P q).
Proof.
  intros P s [W WL] Ls. destruct (clear_state_spec P s W Ls) as (P' & E & Hn & Hl & HR & HP). exists P'. split; auto. split; [|auto].
  assert (HS : forall p, shrunk (pd_nlab P) (rules_at P p) (rules_at P' p)). { intros p. rewrite HR. destruct (Nat.eqb p s); [apply shrunk_nil|apply shrunk_filter; apply WL]. }
  constructor; auto; [intros q x; rewrite HP; destruct (Nat.eqb q s); [intros []|auto]|]. constructor; [eapply clear_state_wf; eauto|]. rewrite Hl. intros p. eapply shrunk_lreps; apply HS.
Qed.
Lemma clear_has : forall P s P' x, wfr P -> s < pd_n P -> clear_state P s = Some P' -> has P x -> s_from (fst x) <> s -> s_to (fst x) <> s -> has P' x.
Proof.
  intros P s P' x W Ls E Hx N1 N2. destruct (clear_red P s W Ls) as (P1 & E1 & HR & R1 & _). rewrite E in E1. injection E1 as <-. apply has_at in Hx. destruct Hx as (r & ls & Hin & Hm & Ht & H).
  apply has_at. exists r, ls. rewrite R1, (rd_nlab _ _ HR). split; auto. destruct (Nat.eqb_spec (s_from (fst x)) s); [contradiction|]. apply filter_In. split; auto. unfold keep. cbn.
  apply negb_true_iff, Nat.eqb_neq. congruence.
Qed.

Lemma clear_unseen_spec : forall seen P, wfr P -> length seen = pd_n P -> exists P', clear_unseen seen P = Some P' /\ red P P' /\
  forall p x, In x (rules_at P' p) <-> In x (rules_at P p) /\ sn seen p /\ sn seen (r_to (fst x)).
Proof.
  intros seen P W L. unfold clear_unseen.
  assert (G : forall k i P1, red P P1 -> i + k = pd_n P -> (forall p x, In x (rules_at P1 p) <-> In x (rules_at P p) /\ (p < i -> sn seen p) /\ (r_to (fst x) < i -> sn seen (r_to (fst x)))) ->
    exists P', ofold (fun P s => b <- nth_error seen s ;; if (b : bool) then Some P else clear_state P s) (seq i k) P1 = Some P' /\ red P P' /\
      forall p x, In x (rules_at P' p) <-> In x (rules_at P p) /\ (p < i + k -> sn seen p) /\ (r_to (fst x) < i + k -> sn seen (r_to (fst x)))).
  { induction k as [|k IH]; intros i P1 HR Hk H; cbn [seq ofold].
    - exists P1. split; auto. split; auto. rewrite Nat.add_0_r. auto.
    - assert (Li : i < length seen) by lia. destruct (nth_error_ex _ _ _ Li) as [b Eb]. rewrite Eb. cbn [obind]. destruct b.
      + cbn [obind]. destruct (IH (S i) P1) as (P' & E & R' & H'); auto; [lia| |].
        * intros p x. rewrite H. split; intros (A & B & C); (split; [auto|split; intros Hl]).
          -- destruct (Nat.eq_dec p i) as [->|]; [exact Eb|apply B; lia].
          -- destruct (Nat.eq_dec (r_to (fst x)) i) as [Ei|]; [rewrite Ei; exact Eb|apply C; lia].
          -- apply B; lia.
          -- apply C; lia.
        * exists P'. replace (i + S k) with (S i + k) by lia. auto.
      + assert (Li1 : i < pd_n P1) by (rewrite (rd_n _ _ HR); lia). destruct (clear_red P1 i (rd_wf _ _ HR) Li1) as (P2 & E2 & R2 & K1 & _). rewrite E2. cbn [obind].
        destruct (IH (S i) P2) as (P' & E & R' & H'); auto; [eapply red_trans; eauto|lia| |].
        * intros p x. rewrite K1. destruct (Nat.eqb_spec p i) as [->|Hn].
          -- split; [intros []|]. intros (_ & B & _). assert (Z : sn seen i) by (apply B; lia). unfold sn in Z. congruence.
          -- rewrite filter_In, H. unfold keep. rewrite negb_true_iff, Nat.eqb_neq. split.
             ++ intros ((A & B & C) & D). split; auto. split; intros Hl; [apply B; lia|apply C; lia].
             ++ intros (A & B & C). split; [split; [auto|split; intros Hl; [apply B; lia|apply C; lia]]|]. intros Ei. assert (Z : sn seen i) by (rewrite <- Ei; apply C; lia). unfold sn in Z. congruence.
        * exists P'. replace (i + S k) with (S i + k) by lia. auto. }
  destruct (G (pd_n P) 0 P) as (P' & E & HR & H); auto; [apply red_refl; auto|intros p x; split; [intros A; split; auto; split; lia|tauto]|].
  exists P'. split; auto. split; auto. intros p x. rewrite H. cbn [Nat.add]. split; intros (A & B & C); (split; [auto|split; auto]); [apply B; destruct x; eapply In_rules_lt; eauto|].
  apply C. destruct x as [r ls]. eapply (wf'_to _ (wfr_wf _ W)); eauto.
Qed.

(** The edges of the graph. *)
Definition succ_edge (P : pda) (p q : nat) : Prop := exists r ls, In (r, ls) (rules_at P p) /\ r_to r = q /\ labels_empty ls = false.
Definition pre_edge (P : pda) (q p : nat) : Prop := In p (pres_at P q).
Lemma nb_succs : forall P p q, nb (succs P) p q <-> succ_edge P p q.
Proof.
  intros P p q. unfold nb, succs, succ_edge. split.
  - intros (ns & E & Hin). destruct (nth_error (pd_states P) p) as [x|] eqn:Ex; [|discriminate]. injection E as <-. apply in_map_iff in Hin. destruct Hin as ([r ls] & <- & Hin).
    apply filter_In in Hin. destruct Hin as [H1 H2]. exists r, ls. rewrite <- (nth_error_rules_at _ _ _ Ex). split; auto. split; auto. cbn in H2. destruct (labels_empty ls); auto; discriminate.
  - intros (r & ls & Hin & <- & He). assert (L := In_rules_lt _ _ _ Hin). destruct (nth_error_ex _ _ _ L) as [x Ex]. rewrite Ex. cbn. eexists. split; [reflexivity|].
    apply in_map_iff. exists (r, ls). split; auto. apply filter_In. rewrite (nth_error_rules_at _ _ _ Ex). cbn. rewrite He. auto.
Qed.
Lemma nb_pres : forall P p q, q < pd_n P -> (nb (pres P) q p <-> pre_edge P q p).
Proof.
  intros P p q L. unfold nb, pres, pre_edge. destruct (nth_error_ex _ _ _ L) as [x Ex]. rewrite Ex. cbn. rewrite <- (nth_error_pres_at _ _ _ Ex). split; [|eauto].
  intros (ns & E & H). congruence.
Qed.
Lemma greach_mono : forall (N M : nat -> nat -> Prop) p q, (forall a b, N a b -> M a b) -> greach N p q -> greach M p q.
Proof. intros N M p q H G. induction G; econstructor; eauto. Qed.
Lemma has_edge : forall P s, wfr P -> has P s -> succ_edge P (s_from (fst s)) (s_to (fst s)) /\ pre_edge P (s_to (fst s)) (s_from (fst s)).
Proof.
  intros P s W H. apply has_at in H. destruct H as (r & ls & Hin & Hm & Ht & _). split.
  - exists r, ls. split; auto. split; auto. unfold matches in Hm. unfold labels_empty. destruct (wild ls); auto. cbn. destruct (labs ls); auto; destruct Hm.
  - unfold pre_edge. rewrite Ht. eapply (wf'_pre _ (wfr_wf _ W)); eauto.
Qed.

Lemma forwards_prune_spec : forall P init, wfr P -> init < pd_n P -> exists P', forwards_prune P init = Some P' /\ red P P' /\
  forall p x, In x (rules_at P' p) <-> In x (rules_at P p) /\ greach (succ_edge P) init p /\ greach (succ_edge P) init (r_to (fst x)).
Proof.
  intros P init W L. unfold forwards_prune. destruct (graph_search_spec (succs P) (pd_n P)) with (start := init) as (seen & E & Ls & HS); auto.
  { intros q Lq. unfold succs. destruct (nth_error_ex _ _ _ Lq) as [x Ex]. rewrite Ex. cbn. eexists. split; [reflexivity|]. intros y Hy. apply in_map_iff in Hy. destruct Hy as ([r ls] & <- & Hin).
    apply filter_In in Hin. destruct Hin as [Hin _]. rewrite (nth_error_rules_at _ _ _ Ex) in Hin. eapply (wf'_to _ (wfr_wf _ W)); eauto. }
  rewrite E. cbn [obind]. destruct (clear_unseen_spec seen P W Ls) as (P' & E' & HR & H). exists P'. split; auto. split; auto. intros p x. rewrite H, !HS.
  assert (Z : forall a b, greach (nb (succs P)) a b <-> greach (succ_edge P) a b) by (intros; split; apply greach_mono; intros; apply nb_succs; auto). rewrite !Z. tauto.
Qed.
Lemma backwards_prune_spec : forall P term, wfr P -> term < pd_n P -> exists P', backwards_prune P term = Some P' /\ red P P' /\
  forall p x, In x (rules_at P' p) <-> In x (rules_at P p) /\ greach (pre_edge P) term (r_to (fst x)).
Proof.
  intros P term W L. unfold backwards_prune. destruct (graph_search_spec (pres P) (pd_n P)) with (start := term) as (seen & E & Ls & HS); auto.
  { intros q Lq. unfold pres. destruct (nth_error_ex _ _ _ Lq) as [x Ex]. rewrite Ex. cbn. eexists. split; [reflexivity|]. intros y Hy.
    rewrite (nth_error_pres_at _ _ _ Ex) in Hy. eapply (wf'_pre_lt _ (wfr_wf _ W)); eauto. }
  rewrite E. cbn [obind]. destruct (clear_unseen_spec seen P W Ls) as (P' & E' & HR & H). exists P'. split; auto. split; auto. intros p x. rewrite H, !HS.
  assert (Z1 : forall a b, greach (nb (pres P)) a b -> greach (pre_edge P) a b).
  { intros a b G. induction G as [q|q q1 q2 Hn G IH]; [constructor|]. apply gr_step with (q1 := q1); auto. destruct Hn as (ns & En & Hin). unfold pres in En.
    destruct (nth_error (pd_states P) q) eqn:Ex; [|discriminate]. injection En as <-. unfold pre_edge. rewrite <- (nth_error_pres_at _ _ _ Ex). auto. }
  assert (Z2 : forall a b, a < pd_n P -> greach (pre_edge P) a b -> greach (nb (pres P)) a b).
  { intros a b La G. induction G as [q|q q1 q2 Hn G IH]; [constructor|]. apply gr_step with (q1 := q1); [apply nb_pres; auto|]. apply IH. eapply (wf'_pre_lt _ (wfr_wf _ W)); eauto. }
  split; [intros (A & B & C); split; auto|]. intros (A & B). split; auto. split; [|apply Z2; auto]. apply Z2; auto. eapply greach_snoc; [exact B|]. destruct x as [r ls]. unfold pre_edge.
  eapply (wf'_pre _ (wfr_wf _ W)); eauto.
Qed.

(** * Runs *)
Lemma step_by_inv : forall r c c', step_by r c c' -> exists w, c = (s_from r, s_pre r :: w) /\ c' = (s_to r, apply_op (s_op r) (s_pre r) w).
Proof. intros r c c' H. inversion H. eauto. Qed.
Lemma chain_forward : forall (N : nat -> nat -> Prop) c ss c', chain c ss c' -> (forall s, In s ss -> N (s_from (fst s)) (s_to (fst s))) -> forall q, greach N q (fst c) ->
  forall s, In s ss -> greach N q (s_from (fst s)) /\ greach N q (s_to (fst s)).
Proof.
  intros N c ss c' H. induction H as [c|c s c' ss c'' HS HC IH]; intros HN q G x Hx; [destruct Hx|]. destruct (step_by_inv _ _ _ HS) as (w & -> & ->). cbn in G.
  assert (Z : greach N q (s_to (fst s))) by (eapply greach_snoc; [exact G|apply HN; cbn; auto]). destruct Hx as [<-|Hx]; auto. apply IH; auto. intros; apply HN; cbn; auto.
Qed.
Lemma chain_backward : forall (N : nat -> nat -> Prop) c ss c', chain c ss c' -> (forall s, In s ss -> N (s_to (fst s)) (s_from (fst s))) -> forall s, In s ss -> greach N (fst c') (s_to (fst s)) .
Proof.
  intros N c ss c' H. induction H as [c|c s c' ss c'' HS HC IH]; intros HN x Hx; [destruct Hx|]. destruct (step_by_inv _ _ _ HS) as (w & -> & ->).
  destruct Hx as [<-|Hx]; [|apply IH; auto; intros; apply HN; cbn; auto]. destruct ss as [|s2 ss].
  - inversion HC. subst c''. cbn. constructor.
  - assert (Z : greach N (fst c'') (s_to (fst s2))) by (apply IH; [intros; apply HN; cbn; auto|cbn; auto]). assert (Z' : greach N (fst c'') (s_from (fst s2))) by (eapply greach_snoc; [exact Z|apply HN; cbn; auto]).
    inversion HC as [|? ? ? ? ? HS2 HC2]; subst. destruct (step_by_inv _ _ _ HS2) as (w2 & E2 & _). injection E2 as E2 _. rewrite E2. auto.
Qed.

Lemma forwards_keeps : forall P init P' w ss c', wfr P -> init < pd_n P -> forwards_prune P init = Some P' -> chain (init, w) ss c' -> (forall s, In s ss -> has P s) -> forall s, In s ss -> has P' s.
Proof.
  intros P init P' w ss c' W L E HC HP s Hs. destruct (forwards_prune_spec P init W L) as (P1 & E1 & HR & H). rewrite E in E1. injection E1 as <-.
  destruct (chain_forward (succ_edge P) _ _ _ HC) with (q := init) (s := s) as [G1 G2]; auto; [intros x Hx; apply has_edge; auto|constructor|].
  assert (Z := HP s Hs). apply has_at in Z. destruct Z as (r & ls & Hin & Hm & Ht & K). apply has_at. exists r, ls. rewrite (rd_nlab _ _ HR). split; auto. apply H. cbn. rewrite <- Ht. auto.
Qed.
Lemma backwards_keeps : forall P term P' c ss c', wfr P -> term < pd_n P -> backwards_prune P term = Some P' -> chain c ss c' -> fst c' = term -> (forall s, In s ss -> has P s) -> forall s, In s ss -> has P' s.
Proof.
  intros P term P' c ss c' W L E HC Et HP s Hs. destruct (backwards_prune_spec P term W L) as (P1 & E1 & HR & H). rewrite E in E1. injection E1 as <-.
  assert (G := chain_backward (pre_edge P) _ _ _ HC). rewrite Et in G. specialize (G (fun x Hx => proj2 (has_edge P x W (HP x Hx))) s Hs).
  assert (Z := HP s Hs). apply has_at in Z. destruct Z as (r & ls & Hin & Hm & Ht & K). apply has_at. exists r, ls. rewrite (rd_nlab _ _ HR). split; auto. apply H. cbn. rewrite <- Ht. auto.
Qed.

(** * Replacing the rules of one state *)
Definition with_rules (P : pda) (p : nat) (x : pstate) (rs : list (rule * labels)) : pda := mk_pda (upd (pd_states P) p (mk_pstate rs (ps_pre x))) (pd_nlab P).
Lemma with_rules_red : forall P p x rs, wfr P -> nth_error (pd_states P) p = Some x -> shrunk (pd_nlab P) (ps_rules x) rs ->
  red P (with_rules P p x rs) /\ (forall q, rules_at (with_rules P p x rs) q = if Nat.eqb q p then rs else rules_at P q) /\ (forall q, pres_at (with_rules P p x rs) q = pres_at P q).
Proof.
  intros P p x rs W Ex HS. assert (Lp : p < length (pd_states P)) by (eapply nth_error_lt; eauto).
  assert (HR : forall q, rules_at (with_rules P p x rs) q = if Nat.eqb q p then rs else rules_at P q).
  { intros q. unfold rules_at, with_rules. cbn [pd_states]. rewrite nth_upd, (Nat.eqb_sym p q), (proj2 (Nat.ltb_lt _ _) Lp). destruct (Nat.eqb q p); auto. }
  assert (HP : forall q, pres_at (with_rules P p x rs) q = pres_at P q).
  { intros q. unfold pres_at, with_rules. cbn [pd_states]. rewrite nth_upd, (proj2 (Nat.ltb_lt _ _) Lp). destruct (Nat.eqb_spec p q) as [<-|]; auto. rewrite (nth_error_nth_default _ _ _ _ _ Ex). auto. }
  split; [|auto]. apply red_same_pre; auto; [apply upd_length|]. intros q. rewrite HR. destruct (Nat.eqb_spec q p) as [->|Hn]; [rewrite <- (nth_error_rules_at _ _ _ Ex); auto|apply shrunk_refl; apply W].
Qed.

(** * target_tos_prune *)
Lemma lvec_label_vec : forall all v, lvec all v <-> label_vec all v.
Proof. intros all v. rewrite label_vec_ssorted. reflexivity. Qed.
Lemma set_insert_spec : forall all xs acc, lvec all acc -> (forall l, In l xs -> l < all) -> lvec all (set_insert acc xs) /\ forall l, In l (set_insert acc xs) <-> In l acc \/ In l xs.
Proof.
  intros all xs. unfold set_insert. induction xs as [|x xs IH]; intros acc [H1 H2] HX; cbn [fold_left].
  - split; [split; auto|]. intros l. cbn. tauto.
  - destruct (IH (vs_emplace x acc)) as [I1 I2].
    + split; [apply vs_emplace_ssorted; auto|]. intros l Hl. apply vs_emplace_In in Hl. destruct Hl as [->|Hl]; auto. apply HX; cbn; auto.
    + intros l Hl. apply HX; cbn; auto.
    + split; auto. intros l. rewrite I2, vs_emplace_In. cbn. intuition.
Qed.
Lemma useful_loop_spec : forall all rules acc u, lreps all rules -> lvec all acc -> useful_loop all rules acc = Some u ->
  lvec all u /\ incl acc u /\ forall r ls l, In (r, ls) rules -> matches all ls l -> In l u.
Proof.
  induction rules as [|[r ls] rules IH]; intros acc u HR HA E; cbn [useful_loop] in E.
  - injection E as <-. split; auto. split; [intros x; auto|]. intros ? ? ? [].
  - destruct (wild ls) eqn:Ew; [discriminate|]. assert (HL : lrep all ls) by (apply (HR r); cbn; auto). destruct HL as [HL _].
    destruct (set_insert_spec all (labs ls) acc) as [I1 I2]; auto; [apply HL|]. destruct (Nat.eqb (length (set_insert acc (labs ls))) all); [discriminate|].
    destruct (IH _ _ (fun r' ls' H' => HR r' ls' (or_intror H')) I1 E) as (K1 & K2 & K3). split; auto. split; [intros x Hx; apply K2, I2; auto|].
    intros r' ls' l [Eq|Hin] Hm; [|eauto]. injection Eq as <- <-. unfold matches in Hm. rewrite Ew in Hm. apply K2, I2. auto.
Qed.

(** The label left on top of the stack by the operation is useful (after a pop this is not looked at). *)
Definition passes (useful : list nat) (r : rule) (l : nat) : Prop := match r_op r with PUSH | SWAP => In (r_opl r) useful | NOOP => In l useful | POP => True end.
Definition lms (all : nat) (ls : labels) : nat := if wild ls then S all else length (labs ls).
Lemma filter_rule_spec : forall all s u x, lrep all (snd x) -> lvec all u ->
  let y := filter_rule s u x in fst (fst y) = fst x /\ lsub all (snd (fst y)) (snd x) /\
    (forall l, matches all (snd x) l -> (r_to (fst x) = s -> passes u (fst x) l) -> matches all (snd (fst y)) l) /\
    (if snd y then lms all (snd (fst y)) < lms all (snd x) else fst y = x).
Proof.
  intros all s u [r ls] HL HU. cbn [snd fst] in *. unfold filter_rule. cbn [fst snd].
  assert (Z : (r, ls) = (r, ls) /\ lsub all ls ls /\ (forall l, matches all ls l -> (r_to r = s -> passes u r l) -> matches all ls l)) by (split; auto; split; [apply lsub_refl|]; auto).
  destruct (Nat.eqb_spec (r_to r) s) as [E|E]; [|cbn; destruct Z as (_ & Z1 & Z2); auto].
  assert (C : forall g, (forall l, passes u r l <-> In g u) -> let y := if negb (labels_empty ls) && negb (memb g u) then ((r, no_labels), true) else ((r, ls), false) in
     fst (fst y) = r /\ lsub all (snd (fst y)) ls /\ (forall l, matches all ls l -> (r_to r = s -> passes u r l) -> matches all (snd (fst y)) l) /\
    (if snd y then lms all (snd (fst y)) < lms all ls else fst y = (r, ls))).
  { intros g Hg. cbn zeta. destruct (labels_empty ls) eqn:Ee; [cbn; destruct Z as (_ & Z1 & Z2); auto|]. destruct (memb g u) eqn:Em; [cbn; destruct Z as (_ & Z1 & Z2); auto|]. cbn.
    split; auto. split; [|split].
    - split; [|split; [discriminate|intros l []]]. split; [|discriminate]. apply lvec_label_vec. split; [constructor|intros l []].
    - intros l Hm Hp. exfalso. assert (Hg' : In g u) by (apply (Hg l); auto). apply memb_In in Hg'. congruence.
    - unfold lms. unfold labels_empty in Ee. destruct (wild ls); cbn; [lia|]. cbn in Ee. destruct (labs ls); [discriminate|cbn; lia]. }
  destruct (r_op r) eqn:Eo.
  - apply C. intros l. unfold passes. rewrite Eo. tauto.
  - cbn. destruct Z as (_ & Z1 & Z2). auto.
  - apply C. intros l. unfold passes. rewrite Eo. tauto.
  - cbn [fst snd]. assert (HU' := proj1 (lvec_label_vec all u) HU). destruct (noop_pre_filter_spec all ls u HL HU') as (N1 & N2 & N3). split; auto. split; [|split].
    + split; auto. split; [|intros l Hm; apply N2 in Hm; tauto]. unfold noop_pre_filter. destruct (wild ls) eqn:Ew; auto. destruct (_ =? _); cbn; congruence.
    + intros l Hm Hp. apply N2. split; auto. specialize (Hp E). unfold passes in Hp. rewrite Eo in Hp. auto.
    + destruct (snd (noop_pre_filter ls u)) eqn:Eb; [|rewrite (proj1 N3 eq_refl); auto]. unfold noop_pre_filter in *. unfold lms. destruct (wild ls) eqn:Ew; cbn in *.
      * destruct HL as [_ HL]. rewrite (HL Ew), app_nil_r. apply lvec_length in HU. lia.
      * destruct (Nat.eqb_spec (length (keep_useful (labs ls) u)) (length (labs ls))) as [E2|E2]; [discriminate|]. cbn. destruct HL as [HL _]. apply label_vec_ssorted in HL.
        apply label_vec_ssorted in HU'. destruct HL as [L1 L2], HU' as [U1 U2]. destruct (keep_spec (labs ls) u L1 U1) as [K1 K2].
        assert (length (keep_useful (labs ls) u) <= length (labs ls)) by (apply NoDup_incl_length; [apply ssorted_NoDup; auto|intros x Hx; apply K1 in Hx; tauto]). lia.
Qed.
Lemma filter_rules_shrunk : forall all s u xs, lreps all xs -> lvec all u -> shrunk all xs (map fst (map (filter_rule s u) xs)).
Proof.
  induction xs as [|[r ls] xs IH]; intros HR HU; cbn [map]; [constructor|]. assert (F := filter_rule_spec all s u (r, ls) (HR r ls (or_introl eq_refl)) HU). cbn zeta in F.
  destruct F as (F1 & F2 & _). destruct (filter_rule s u (r, ls)) as [[r' ls'] b]. cbn in *. subst r'. apply sh_keep; auto. apply IH; auto. intros r' l' H'. apply (HR r'). cbn; auto.
Qed.

(** A bound for the number of rounds. *)
Definition mu_rules (all : nat) (xs : list (rule * labels)) : nat := list_sum (map (fun x => lms all (snd x)) xs).
Definition mu (P : pda) : nat := list_sum (map (fun s => mu_rules (pd_nlab P) (ps_rules s)) (pd_states P)).
Lemma lsum_cons : forall a l, list_sum (a :: l) = a + list_sum l.
Proof. reflexivity. Qed.
Lemma sum_upd : forall A (f : A -> nat) l i x y, nth_error l i = Some x -> list_sum (map f (upd l i y)) + f x = list_sum (map f l) + f y.
Proof. induction l as [|a l IH]; intros [|i] x y H; try discriminate; cbn [nth_error upd map] in *; rewrite !lsum_cons; [injection H as ->; lia|]. specialize (IH i x y H). lia. Qed.
Lemma mu_with_rules : forall P p x rs, nth_error (pd_states P) p = Some x -> mu (with_rules P p x rs) + mu_rules (pd_nlab P) (ps_rules x) = mu P + mu_rules (pd_nlab P) rs.
Proof. intros P p x rs H. unfold mu, with_rules. cbn [pd_states pd_nlab]. exact (sum_upd _ (fun s => mu_rules (pd_nlab P) (ps_rules s)) _ _ _ _ H). Qed.
Lemma filter_rules_mu : forall all s u xs, lreps all xs -> lvec all u -> let rs := map (filter_rule s u) xs in
  (if existsb snd rs then mu_rules all (map fst rs) < mu_rules all xs else mu_rules all (map fst rs) <= mu_rules all xs).
Proof.
  intros all s u xs HR HU. cbn zeta. induction xs as [|x xs IH]; [cbn; auto|]. cbn [map existsb]. assert (F := filter_rule_spec all s u x). destruct x as [r ls].
  specialize (F (HR r ls (or_introl eq_refl)) HU). cbn zeta in F. destruct F as (_ & _ & _ & F). specialize (IH (fun r' l' H' => HR r' l' (or_intror H'))). unfold mu_rules in *. cbn [map] in *. rewrite !lsum_cons. cbn [snd] in *.
  destruct (snd (filter_rule s u (r, ls))); cbn [orb].
  - destruct (existsb snd (map (filter_rule s u) xs)); lia.
  - rewrite F. cbn [snd]. destruct (existsb snd (map (filter_rule s u) xs)); lia.
Qed.

Definition passing (s : nat) (u : list nat) (x : srule * Z) : Prop := s_to (fst x) = s -> match s_op (fst x) with SPush g | SSwap g => In g u | SNoop => In (s_pre (fst x)) u | SPop => True end.
Lemma filter_pre_spec : forall s u P w inw p, wfr P -> lvec (pd_nlab P) u -> p < pd_n P -> length inw = pd_n P -> (forall q, In q w -> q < pd_n P) ->
  exists P' w' inw', filter_pre s u (P, (w, inw)) p = Some (P', (w', inw')) /\ red P P' /\ (forall q, pres_at P' q = pres_at P q) /\ length inw' = pd_n P /\
    (forall q, In q w' -> q < pd_n P) /\ length w' + mu P' <= length w + mu P /\ forall x, has P x -> passing s u x -> has P' x.
Proof.
  intros s u P w inw p W HU Lp Li Hw. unfold filter_pre. cbn [fst snd]. destruct (nth_error_ex _ _ _ Lp) as [x Ex]. rewrite Ex. cbn [obind].
  set (rs := map (filter_rule s u) (ps_rules x)). change (mk_pda _ _) with (with_rules P p x (map fst rs)). set (P' := with_rules P p x (map fst rs)).
  assert (HL : lreps (pd_nlab P) (ps_rules x)) by (rewrite (nth_error_rules_at _ _ _ Ex); apply W).
  destruct (with_rules_red P p x (map fst rs) W Ex) as (HR & R1 & R2); [apply filter_rules_shrunk; auto|].
  assert (M := filter_rules_mu (pd_nlab P) s u (ps_rules x) HL HU). cbn zeta in M. change (map (filter_rule s u) (ps_rules x)) with rs in M.
  assert (M2 := mu_with_rules P p x (map fst rs) Ex). fold P' in M2, HR, R1, R2.
  assert (K : forall y, has P y -> passing s u y -> has P' y).
  { intros y Hy Hp. apply has_at in Hy. destruct Hy as (r & ls & Hin & Hm & Ht & Ho & Hz). apply has_at. rewrite R1, (rd_nlab _ _ HR). destruct (Nat.eqb_spec (s_from (fst y)) p) as [Ep|Ep]; [|exists r, ls; auto].
    rewrite Ep, <- (nth_error_rules_at _ _ _ Ex) in Hin. assert (F := filter_rule_spec (pd_nlab P) s u (r, ls) (HL _ _ Hin) HU). cbn zeta in F. destruct F as (F1 & _ & F2 & _). cbn [fst snd] in *.
    exists r, (snd (fst (filter_rule s u (r, ls)))). split.
    - unfold rs. rewrite map_map. apply in_map_iff. exists (r, ls). split; auto. destruct (filter_rule s u (r, ls)) as [[r' l'] b]. cbn in *. congruence.
    - split; auto. apply F2; auto. intros Es. unfold passing in Hp. rewrite Ht in Hp. specialize (Hp Es). rewrite Ho in Hp. unfold passes. unfold sop_of in Hp. destruct (r_op r); auto. }
  destruct (existsb snd rs).
  - cbn [visit]. assert (Lp' : p < length inw) by lia. destruct (nth_error_ex _ _ _ Lp') as [b Eb]. rewrite Eb. cbn [obind]. destruct b; cbn [obind].
    + exists P', w, inw. split; auto. split; auto. split; auto. split; auto. split; auto. split; [lia|auto].
    + exists P', (w ++ [p]), (upd inw p true). split; auto. split; auto. split; auto. split; [rewrite upd_length; auto|]. split; [|split; [rewrite app_length; cbn [length]; lia|auto]].
      intros q Hq. apply in_app_or in Hq. destruct Hq as [Hq|[<-|[]]]; auto.
  - exists P', w, inw. split; auto. split; auto. split; auto. split; auto. split; auto. split; [lia|auto].
Qed.
Lemma filter_pres_spec : forall s u ps P w inw, wfr P -> lvec (pd_nlab P) u -> (forall p, In p ps -> p < pd_n P) -> length inw = pd_n P -> (forall q, In q w -> q < pd_n P) ->
  exists P' w' inw', ofold (filter_pre s u) ps (P, (w, inw)) = Some (P', (w', inw')) /\ red P P' /\ length inw' = pd_n P /\
    (forall q, In q w' -> q < pd_n P) /\ length w' + mu P' <= length w + mu P /\ forall x, has P x -> passing s u x -> has P' x.
Proof.
  intros s u ps. induction ps as [|p ps IH]; intros P w inw W HU Hp Li Hw; cbn [ofold].
  - exists P, w, inw. split; auto. split; [apply red_refl; auto|]. auto.
  - destruct (filter_pre_spec s u P w inw p) as (P1 & w1 & i1 & E1 & R1 & _ & L1 & W1 & M1 & K1); auto; [apply Hp; cbn; auto|]. rewrite E1. cbn [obind].
    assert (N := rd_n _ _ R1). destruct (IH P1 w1 i1) as (P2 & w2 & i2 & E2 & R2 & L2 & W2 & M2 & K2); try (rewrite ?N, ?(rd_nlab _ _ R1); auto; fail); [apply R1|intros q Hq; rewrite N; apply Hp; cbn; auto|].
    exists P2, w2, i2. split; auto. split; [eapply red_trans; eauto|]. rewrite N in L2, W2. split; auto. split; auto. split; [lia|auto].
Qed.
Lemma target_step_spec : forall term P s w inw, wfr P -> s < pd_n P -> length inw = pd_n P -> (forall q, In q w -> q < pd_n P) ->
  exists P' w' inw', target_step term P s w inw = Some (P', (w', inw')) /\ red P P' /\ length inw' = pd_n P /\ (forall q, In q w' -> q < pd_n P) /\ length w' + mu P' <= length w + mu P /\
    forall x, has P x -> (s_to (fst x) = s -> s <> term -> match s_op (fst x) with SPop => True | SPush g | SSwap g => exists y, has P y /\ s_from (fst y) = s /\ s_pre (fst y) = g
      | SNoop => exists y, has P y /\ s_from (fst y) = s /\ s_pre (fst y) = s_pre (fst x) end) -> has P' x.
Proof.
  intros term P s w inw W Ls Li Hw. unfold target_step. destruct (Nat.eqb_spec s term) as [Et|Et].
  { exists P, w, inw. split; auto. split; [apply red_refl; auto|]. auto. }
  destruct (nth_error_ex _ _ _ Ls) as [x Ex]. rewrite Ex. cbn [obind]. assert (HL : lreps (pd_nlab P) (ps_rules x)) by (rewrite (nth_error_rules_at _ _ _ Ex); apply W).
  destruct (useful_loop (pd_nlab P) (ps_rules x) []) as [u|] eqn:Eu.
  - destruct (useful_loop_spec _ _ _ _ HL ltac:(split; [constructor|intros ? []]) Eu) as (HU & _ & U2).
    destruct (filter_pres_spec s u (ps_pre x) P w (upd inw s false)) as (P' & w' & i' & E & R & L & W' & M & K); auto; [|rewrite upd_length; auto|].
    { intros p Hp. rewrite (nth_error_pres_at _ _ _ Ex) in Hp. eapply (wf'_pre_lt _ (wfr_wf _ W)); eauto. }
    exists P', w', i'. split; auto. split; auto. split; auto. split; auto. split; auto. intros y Hy Hc. apply K; auto. intros Es. specialize (Hc Es Et).
    assert (Z : forall g, (exists y, has P y /\ s_from (fst y) = s /\ s_pre (fst y) = g) -> In g u).
    { intros g (z & Hz & Ez & Eg). apply has_at in Hz. destruct Hz as (r & ls & Hin & Hm & _). rewrite Ez, <- (nth_error_rules_at _ _ _ Ex) in Hin. rewrite Eg in Hm. eauto. }
    destruct (s_op (fst y)); auto.
  - exists P, w, (upd inw s false). split; auto. split; [apply red_refl; auto|]. rewrite upd_length. auto.
Qed.

(** What follows a step of a run. *)
Lemma chain_next : forall c ss c', chain c ss c' -> forall s, In s ss -> s_to (fst s) = fst c' \/
  exists y, In y ss /\ s_from (fst y) = s_to (fst s) /\ match s_op (fst s) with SPop => True | SPush g | SSwap g => s_pre (fst y) = g | SNoop => s_pre (fst y) = s_pre (fst s) end.
Proof.
  intros c ss c' H. induction H as [c|c s c' ss c'' HS HC IH]; intros x Hx; [destruct Hx|]. destruct (step_by_inv _ _ _ HS) as (w & -> & ->).
  destruct Hx as [<-|Hx]; [|destruct (IH x Hx) as [|(y & H1 & H2)]; auto; right; exists y; cbn; auto]. inversion HC as [|c0 s2 c1 ss2 c2 HS2 HC2]; subst; [left; auto|]. right.
  exists s2. split; [cbn; auto|]. destruct (step_by_inv _ _ _ HS2) as (w2 & E2 & _). injection E2 as E2 E3. split; auto. destruct (s_op (fst s)); auto; cbn in E3; injection E3; auto.
Qed.
Definition all_has (P : pda) (ss : list (srule * Z)) : Prop := forall s, In s ss -> has P s.
Lemma target_loop_spec : forall term n fuel P w inw, wfr P -> pd_n P = n -> length inw = n -> (forall q, In q w -> q < n) ->
  (exists P', target_loop term fuel P w inw = done P' /\ red P P' /\ forall c ss c', chain c ss c' -> fst c' = term -> all_has P ss -> all_has P' ss) \/
  (target_loop term fuel P w inw = Some None /\ fuel < length w + mu P).
Proof.
  intros term n. induction fuel as [|f IH]; intros P w inw W Hn Hi Hw; destruct w as [|s w]; cbn [target_loop].
  - left. exists P. split; auto. split; [apply red_refl; auto|auto].
  - right. split; auto. cbn. lia.
  - left. exists P. split; auto. split; [apply red_refl; auto|auto].
  - destruct (target_step_spec term P s w inw) as (P' & w' & i' & E & R & L & W' & M & K); auto; [rewrite Hn; apply Hw; cbn; auto|congruence|intros q Hq; rewrite Hn; apply Hw; cbn; auto|].
    rewrite E. assert (N := rd_n _ _ R). destruct (IH P' w' i') as [(P2 & E2 & R2 & K2)|[E2 F2]]; [apply R|congruence|congruence|rewrite <- Hn; auto| |].
    + left. exists P2. split; auto. split; [eapply red_trans; eauto|]. intros c ss c' HC Et HP. apply (K2 c ss c' HC Et). intros x Hx. apply K; [auto|]. intros Es Nt.
      destruct (chain_next _ _ _ HC x Hx) as [Z|(y & Y1 & Y2 & Y3)]; [congruence|]. rewrite Es in Y2. destruct (s_op (fst x)); eauto.
    + right. split; auto. cbn. lia.
Qed.
Lemma target_tos_prune_spec : forall term P, wfr P -> answers (fun fuel => target_tos_prune fuel P term)
  (fun P' => red P P' /\ forall c ss c', chain c ss c' -> fst c' = term -> all_has P ss -> all_has P' ss).
Proof.
  intros term P W. assert (H : forall fuel, _) by (intros fuel; exact (target_loop_spec term (pd_n P) fuel P (seq 0 (pd_n P)) (repeat true (pd_n P)) W eq_refl (repeat_length _ _) (fun q Hq => proj2 (proj1 (in_seq _ _ _) Hq)))).
  split.
  - intros fuel. destruct (H fuel) as [(P' & E & R)|[E _]]; [right; eauto|left; auto].
  - exists (length (seq 0 (pd_n P)) + mu P). intros fuel L E. unfold target_tos_prune in E. destruct (H fuel) as [(P' & E' & _)|[_ F]]; [rewrite E' in E; discriminate|lia].
Qed.

(** * Loops with a bound *)
Definition within {A} (b : nat) (f : nat -> option (option A)) (Q : A -> Prop) : Prop :=
  forall fuel, (exists x, f fuel = done x /\ Q x) \/ (f fuel = Some None /\ fuel < b).
Lemma within_answers : forall A b (f : nat -> option (option A)) Q, within b f Q -> answers f Q.
Proof.
  intros A b f Q H. split.
  - intros fuel. destruct (H fuel) as [(x & E & K)|[E _]]; [right; eauto|left; auto].
  - exists b. intros fuel L E. destruct (H fuel) as [(x & E2 & K)|[_ F]]; [rewrite E2 in E; discriminate|lia].
Qed.
Lemma within_bind : forall A B b1 b2 (f : nat -> option (option A)) (g : A -> nat -> option (option B)) Q R, within b1 f Q -> (forall x, Q x -> within b2 (g x) R) ->
  within (b1 + b2) (fun fuel => lbind (f fuel) (fun x => g x fuel)) R.
Proof.
  intros A B b1 b2 f g Q R H1 H2 fuel. destruct (H1 fuel) as [(x & E & K)|[E F]]; rewrite E; cbn [lbind done].
  - destruct (H2 x K fuel) as [(y & E2 & K2)|[E2 F2]]; [left; eauto|right; split; auto; lia].
  - right. split; auto. lia.
Qed.
Lemma within_done : forall A b (x : A) (Q : A -> Prop), Q x -> within b (fun _ => done x) Q.
Proof. intros A b x Q H fuel. left. eauto. Qed.
Lemma within_mono : forall A b b' (f : nat -> option (option A)) (Q R : A -> Prop), within b f Q -> b <= b' -> (forall x, Q x -> R x) -> within b' f R.
Proof. intros A b b' f Q R H L HQ fuel. destruct (H fuel) as [(x & E & K)|[E F]]; [left; eauto|right; split; auto; lia]. Qed.

Lemma lsub_lms : forall all ls' ls, lsub all ls' ls -> lms all ls' <= lms all ls.
Proof.
  intros all ls' ls (L1 & L2 & L3). unfold lms. unfold matches in L3. destruct (wild ls') eqn:E'.
  - rewrite (L2 eq_refl). auto.
  - destruct L1 as [L1 _]. apply lvec_label_vec in L1. destruct (wild ls); [apply lvec_length in L1; lia|]. apply NoDup_incl_length; [apply ssorted_NoDup, L1|]. intros x; auto.
Qed.
Lemma shrunk_mu : forall all xs ys, shrunk all xs ys -> mu_rules all ys <= mu_rules all xs.
Proof.
  intros all xs ys H. unfold mu_rules. induction H as [|x xs ys H IH|r ls ls' xs ys HL H IH]; auto; cbn [map]; rewrite !lsum_cons; [lia|]. cbn [snd]. apply lsub_lms in HL. lia.
Qed.
Lemma map_states : forall B (f : list (rule * labels) -> B) P, map (fun s => f (ps_rules s)) (pd_states P) = map (fun p => f (rules_at P p)) (seq 0 (pd_n P)).
Proof.
  intros B f P. unfold rules_at, pd_n. generalize (pd_states P). induction l as [|s l IH]; auto. cbn [map length seq nth]. f_equal. rewrite IH, <- seq_shift, map_map. auto.
Qed.
Lemma sum_le : forall A (f g : A -> nat) l, (forall x, In x l -> f x <= g x) -> list_sum (map f l) <= list_sum (map g l).
Proof. intros A f g. induction l as [|x l IH]; intros H; auto. cbn [map]. rewrite !lsum_cons. assert (f x <= g x) by (apply H; cbn; auto). assert (list_sum (map f l) <= list_sum (map g l)) by (apply IH; intros; apply H; cbn; auto). lia. Qed.
Lemma red_mu : forall P P', red P P' -> mu P' <= mu P.
Proof.
  intros P P' R. unfold mu. rewrite !(map_states _ (mu_rules _)), (rd_n _ _ R), (rd_nlab _ _ R). apply sum_le. intros p _. apply shrunk_mu, R.
Qed.
Lemma target_within : forall term P, wfr P -> within (pd_n P + mu P) (fun fuel => target_tos_prune fuel P term)
  (fun P' => red P P' /\ forall c ss c', chain c ss c' -> fst c' = term -> all_has P ss -> all_has P' ss).
Proof.
  intros term P W fuel. destruct (target_loop_spec term (pd_n P) fuel P (seq 0 (pd_n P)) (repeat true (pd_n P)) W eq_refl (repeat_length _ _) (fun q Hq => proj2 (proj1 (in_seq _ _ _) Hq))) as [(P' & E & R)|[E F]].
  - left. exists P'. auto.
  - right. split; auto. rewrite seq_length in F. auto.
Qed.

(** * Saturation *)
Definition wft (all : nat) (t : tos_t) : Prop := lvec all (t_tos t) /\ lvec all (t_stk t).
(** [t'] is [t] with more labels. *)
Definition tgrow (all : nat) (t t' : tos_t) (c : bool * bool) : Prop :=
  grow all (t_tos t) (t_tos t') (fst c) /\ grow all (t_stk t) (t_stk t') (snd c) /\ t_wt t' = t_wt t /\ t_wb t' = t_wb t.
(** What a rule from a state with stacks [p] asks of its target [t]. *)
Definition closed_rule (all : nat) (ds : bool) (r : rule) (ls : labels) (p t : tos_t) : Prop :=
  forall l, matches all ls l -> In l (t_tos p) ->
    match r_op r with
    | POP => if ds then incl (t_stk p) (t_tos t) else forall g, g < all -> In g (t_tos t)
    | NOOP => In l (t_tos t)
    | SWAP | PUSH => In (r_opl r) (t_tos t)
    end /\ (ds = true -> incl (t_stk p) (t_stk t)) /\ (ds = true -> r_op r = PUSH -> incl (t_tos p) (t_stk t)).
Lemma grow_trans : forall all a b c f1 f2, grow all a b f1 -> grow all b c f2 -> grow all a c (f1 || f2).
Proof.
  intros all a b c f1 f2 (A1 & A2 & A3) (B1 & B2 & B3). split; auto. split; [intros x Hx; auto|]. destruct f1, f2; cbn; try lia; [rewrite B3; auto|rewrite <- A3; auto|congruence].
Qed.
Lemma active_ok : forall all t ls l, wft all t -> lrep all ls -> matches all ls l -> In l (t_tos t) -> active t ls = true.
Proof.
  intros all t ls l [[W _] _] [L _] Hm Hl. unfold active, labels_empty. unfold matches in Hm. destruct (wild ls); cbn; auto. assert (Z : labs ls <> []) by (intros Z; rewrite Z in Hm; destruct Hm).
  destruct (labs ls) as [|x v] eqn:E; [congruence|]. rewrite <- E in *. apply lvec_label_vec in L. destruct L as [L _]. eapply active_loop_ok; eauto.
Qed.
Lemma tgrow_refl : forall all t, wft all t -> tgrow all t t (false, false).
Proof. intros all t [W1 W2]. split; [apply grow_refl; auto|]. split; [apply grow_refl; auto|auto]. Qed.
Lemma seq_lvec : forall all, lvec all (seq 0 all).
Proof.
  intros all. split; [|intros l Hl; apply in_seq in Hl; lia]. assert (G : forall k i, ssorted (seq i k)); [|apply G]. induction k as [|k IH]; intros i; cbn; [constructor|]. apply ssorted_cons. split; auto.
  intros y Hy. apply in_seq in Hy. lia.
Qed.

Lemma merge_pop_ok : forall all ds r ls this prev, wft all this -> wft all prev -> lrep all ls -> r_op r = POP ->
  let m := merge_pop this prev ls ds all in tgrow all this (fst m) (snd m) /\ closed_rule all ds r ls prev (fst m).
Proof.
  intros all ds r ls this prev [T1 T2] HP HL Eo. cbn zeta. unfold merge_pop. destruct (active prev ls) eqn:Ea.
  2:{ cbn [fst snd]. split; [apply tgrow_refl; split; auto|]. intros l Hm Hl. exfalso. assert (Z := active_ok all prev ls l HP HL Hm Hl). congruence. }
  destruct ds.
  - destruct (forward_stack_ok all (t_stk this) (t_stk prev)) as [F1 F2]; auto; [apply HP|].
    assert (G : forall ts, grow all (t_tos this) (fst ts) (snd ts) -> incl (t_stk prev) (fst ts) ->
       let m := (mk_tos (fst ts) (fst (forward_stack (t_stk this) (t_stk prev) all)) (t_wt this) (t_wb this), (snd ts, snd (forward_stack (t_stk this) (t_stk prev) all))) in
       tgrow all this (fst m) (snd m) /\ closed_rule all true r ls prev (fst m)).
    { intros ts G1 G2. cbn zeta. split; [split; [auto|split; [auto|split; auto]]|]. intros l Hm Hl. rewrite Eo. split; auto. split; auto. discriminate. }
    apply G; destruct (Nat.eqb_spec (length (t_tos this)) all) as [E1|E1]; cbn [fst snd].
    + apply grow_refl; auto.
    + destruct (Nat.eqb_spec (length (t_stk prev)) all) as [E2|E2]; cbn [fst snd]; [apply grow_full; auto; apply HP|].
      eapply union_grow; [auto| |apply ins_loop_ok]; [apply HP|apply T1|apply HP].
    + intros x Hx. eapply full_lvec; eauto. apply HP; auto.
    + destruct (Nat.eqb_spec (length (t_stk prev)) all) as [E2|E2]; cbn [fst snd]; [intros x; auto|]. destruct HP as [_ HP2].
      destruct (union_grow all (t_tos this) (t_stk prev) _ _ T1 HP2 (ins_loop_ok (t_stk prev) (t_tos this) (proj1 T1) (proj1 HP2))) as [_ Z]. exact Z.
  - destruct (Nat.eqb_spec (length (t_tos this)) all) as [E1|E1]; cbn [fst snd].
    + split; [apply tgrow_refl; split; auto|]. intros l Hm Hl. rewrite Eo. split; [intros g Hg; eapply full_lvec; eauto|]. split; discriminate.
    + destruct (grow_full all (t_tos this) (seq 0 all)) as [G1 G2]; auto; [apply seq_lvec|apply seq_length|]. split; [split; [exact G1|split; [apply grow_refl; auto|split; auto]]|].
      intros l Hm Hl. rewrite Eo. split; auto. split; discriminate.
Qed.
Lemma fs_part : forall all (ds : bool) this prev, wft all this -> wft all prev -> let fs := if ds then forward_stack (t_stk this) (t_stk prev) all else (t_stk this, false) in
  grow all (t_stk this) (fst fs) (snd fs) /\ (ds = true -> incl (t_stk prev) (fst fs)).
Proof.
  intros all ds this prev [_ W1] [_ W2]. cbn zeta. destruct ds; cbn [fst snd].
  - destruct (forward_stack_ok all (t_stk this) (t_stk prev) W1 W2). auto.
  - split; [apply grow_refl; auto|discriminate].
Qed.
Lemma merge_noop_ok : forall all ds r ls this prev, wft all this -> wft all prev -> lrep all ls -> r_op r = NOOP ->
  let m := merge_noop this prev ls ds all in tgrow all this (fst m) (snd m) /\ closed_rule all ds r ls prev (fst m).
Proof.
  intros all ds r ls this prev HT HP HL Eo. cbn zeta. unfold merge_noop. destruct (labels_empty ls) eqn:Ee; cbn [fst snd].
  { split; [apply tgrow_refl; auto|]. intros l Hm Hl. exfalso. unfold labels_empty in Ee. unfold matches in Hm. destruct (wild ls); [discriminate|]. destruct (labs ls); [auto|discriminate]. }
  destruct (fs_part all ds this prev HT HP) as [F1 F2]. set (src := if wild ls then t_tos prev else labs ls).
  assert (LS : lvec all src). { unfold src. destruct (wild ls); [apply HP|]. apply lvec_label_vec. apply HL. }
  destruct HT as [T1 T2]. destruct (union_grow all (t_tos this) src _ _ T1 LS (noop_loop_ok src (t_tos this) (proj1 T1) (proj1 LS))) as [U1 U2].
  split; [split; [exact U1|split; [exact F1|split; auto]]|]. intros l Hm Hl. rewrite Eo. cbn [t_tos t_stk]. split; [|split; [auto|discriminate]]. apply U2. unfold src. unfold matches in Hm. destruct (wild ls); auto.
Qed.
Lemma merge_swap_ok : forall all ds opl ls this prev, wft all this -> wft all prev -> lrep all ls -> opl < all ->
  exists m, merge_swap this prev opl ls ds all = Some m /\ tgrow all this (fst m) (snd m) /\
    (forall l, matches all ls l -> In l (t_tos prev) -> In opl (t_tos (fst m)) /\ (ds = true -> incl (t_stk prev) (t_stk (fst m)))).
Proof.
  intros all ds opl ls this prev HT HP HL Ho. unfold merge_swap. destruct (active prev ls) eqn:Ea.
  2:{ eexists. split; [reflexivity|]. cbn [fst snd]. split; [apply tgrow_refl; auto|]. intros l Hm Hl. exfalso. assert (Z := active_ok all prev ls l HP HL Hm Hl). congruence. }
  destruct (fs_part all ds this prev HT HP) as [F1 F2]. destruct HT as [T1 T2]. destruct (emplace_grow all (t_tos this) opl T1 Ho) as (v & i & b & E & G1 & G2). rewrite E. cbn [obind fst snd].
  eexists. split; [reflexivity|]. cbn [fst snd t_tos t_stk]. split; [split; [exact G1|split; [exact F1|split; auto]]|]. auto.
Qed.
Lemma tgrow_wft : forall all t t' c, tgrow all t t' c -> wft all t'.
Proof. intros all t t' c ((H1 & _) & (H2 & _) & _). split; auto. Qed.
Lemma merge_push_ok : forall all ds opl ls this prev same, wft all this -> wft all prev -> lrep all ls -> opl < all -> (same = true -> t_tos this = t_tos prev) ->
  exists m, merge_push same this prev opl ls ds all = Some m /\ tgrow all this (fst m) (snd m) /\
    (forall l, matches all ls l -> In l (t_tos prev) -> In opl (t_tos (fst m)) /\ (ds = true -> incl (t_stk prev) (t_stk (fst m))) /\ (ds = true -> incl (t_tos prev) (t_stk (fst m)))).
Proof.
  intros all ds opl ls this prev same HT HP HL Ho HS. unfold merge_push. destruct (merge_swap_ok all ds opl ls this prev HT HP HL Ho) as ([t1 [c1 c2]] & E & G & K). rewrite E. cbn [obind fst snd] in *.
  destruct ds; [|eexists; split; [reflexivity|]; cbn [fst snd]; split; auto; intros l Hm Hl; destruct (K l Hm Hl); split; auto; split; auto; discriminate].
  assert (W1 := tgrow_wft _ _ _ _ G). set (ptos := if same then t_tos t1 else t_tos prev).
  assert (PV : lvec all ptos) by (unfold ptos; destruct same; [apply W1|apply HP]).
  assert (PI : incl (t_tos prev) ptos). { unfold ptos. destruct same; [|intros x; auto]. rewrite <- (HS eq_refl). apply G. }
  destruct (Nat.eqb_spec (length (t_stk t1)) all) as [E1|E1].
  - eexists. split; [reflexivity|]. cbn [fst snd]. split; auto. intros l Hm Hl. destruct (K l Hm Hl). split; auto. split; auto. intros _ x Hx. exact (full_lvec all (t_stk t1) (proj2 W1) E1 x (proj2 (proj1 HP) x Hx)).
  - eexists. split; [reflexivity|]. cbn [fst snd t_tos t_stk].
    assert (G2 : let st := if Nat.eqb (length ptos) all then (ptos, true) else ins_loop (t_stk t1) ptos in grow all (t_stk t1) (fst st) (snd st) /\ incl ptos (fst st)).
    { cbn zeta. destruct (Nat.eqb_spec (length ptos) all) as [E2|E2]; cbn [fst snd]; [split; [apply grow_full; auto; apply W1|intros x; auto]|]. destruct W1 as [_ W1].
      eapply union_grow; eauto. apply ins_loop_ok; [apply W1|apply PV]. }
    cbn zeta in G2. set (st := if Nat.eqb (length ptos) all then (ptos, true) else ins_loop (t_stk t1) ptos) in *. destruct G2 as [G2 G3]. destruct G as (A1 & A2 & A3 & A4). cbn [fst snd] in *.
    split; [split; [auto|split; [eapply grow_trans; eauto|split; auto]]|]. intros l Hm Hl. destruct (K l Hm Hl) as [K1 K2]. split; auto. split; [|intros _ x Hx; auto].
    intros _ x Hx. apply G2. apply K2; auto.
Qed.

Section Sat.
  Variables (P : pda) (term : nat) (ds : bool).
  Hypothesis W : wfr P.
  Let all := pd_nlab P.
  Let n := pd_n P.
  Definition ent (app : list tos_t) (p : nat) : tos_t := nth p app tos0.
  Definition flagged (t : tos_t) : Prop := t_wt t = true \/ t_wb t = true.
  Definition app_ok (app : list tos_t) (w : list nat) : Prop :=
    length app = n /\ (forall p, wft all (ent app p)) /\ (forall q, In q w -> q < n) /\ (forall p, flagged (ent app p) -> In p w).
  Definition closed_at (app : list tos_t) (p : nat) (xs : list (rule * labels)) : Prop :=
    forall r ls, In (r, ls) xs -> r_to r <> term -> closed_rule all ds r ls (ent app p) (ent app (r_to r)).
  Definition weight (app : list tos_t) : nat := list_sum (map (fun t => (all - length (t_tos t)) + (all - length (t_stk t))) app).
  (** [app'] with queue [w'] after some rules: grown, and every changed state is queued. *)
  Definition app_grow (app app' : list tos_t) (w' : list nat) : Prop :=
    forall p, incl (t_tos (ent app p)) (t_tos (ent app' p)) /\ incl (t_stk (ent app p)) (t_stk (ent app' p)) /\
      (In p w' \/ (t_tos (ent app' p) = t_tos (ent app p) /\ t_stk (ent app' p) = t_stk (ent app p))).
  Lemma ent_upd : forall app i x p, i < length app -> ent (upd app i x) p = if Nat.eqb i p then x else ent app p.
  Proof. intros app i x p L. unfold ent. rewrite nth_upd, (proj2 (Nat.ltb_lt _ _) L). auto. Qed.
  Lemma ent_nth : forall app p, p < length app -> nth_error app p = Some (ent app p).
  Proof. intros. apply nth_error_nth'. auto. Qed.
  Lemma wft_tos0 : wft all tos0.
  Proof. split; split; try constructor; intros l []. Qed.
  Lemma closed_mono : forall r ls p p' t t', closed_rule all ds r ls p t -> t_tos p' = t_tos p -> t_stk p' = t_stk p -> incl (t_tos t) (t_tos t') -> incl (t_stk t) (t_stk t') -> closed_rule all ds r ls p' t'.
  Proof.
    intros r ls p p' t t' H E1 E2 I1 I2 l Hm Hl. rewrite E1 in *. rewrite E2 in *. destruct (H l Hm Hl) as (H1 & H2 & H3). split.
    - destruct (r_op r); auto. destruct ds; [intros x Hx; auto|auto].
    - split; intros; intros x Hx; apply I2; [apply H2|apply H3]; auto.
  Qed.

  Lemma update_spec : forall t c t' b, update_state t c = (t', b) -> t_tos t' = t_tos t /\ t_stk t' = t_stk t /\
    (flagged t' -> flagged t \/ b = true) /\ ((fst c || snd c) = true -> flagged t') /\ (b = true -> (fst c || snd c) = true).
  Proof.
    intros t [c1 c2] t' b E. unfold update_state in E. cbn [fst snd] in *. unfold flagged. destruct t as [ts st wt wb]. cbn in *. destruct wt, wb; cbn in E; try (injection E as <- <-; cbn; destruct c1, c2; cbn; intuition; fail).
  Qed.
  Lemma sat_rule_spec : forall el app w r ls, app_ok app w -> In (r, ls) (rules_at P el) ->
    exists app' w', sat_rule term ds all el (app, w) (r, ls) = Some (app', w') /\ app_ok app' w' /\ incl w w' /\ app_grow app app' w' /\
      (r_to r <> term -> closed_rule all ds r ls (ent app el) (ent app' (r_to r))) /\ length w' + weight app' <= length w + weight app.
  Proof.
    intros el app w r ls (Ln & HW & Hw & HF) Hin. unfold sat_rule. cbn [fst snd]. assert (OK : app_ok app w) by (split; auto).
    assert (Tr : length w + weight app <= length w + weight app) by auto.
    assert (GR : app_grow app app w) by (intros p; split; [intros x; auto|split; [intros x; auto|auto]]).
    destruct (Nat.eqb_spec (r_to r) term) as [Et|Et]. { exists app, w. split; auto. split; auto. split; [intros x; auto|]. split; auto. split; [congruence|auto]. }
    destruct (labels_empty ls) eqn:Ee. { exists app, w. split; auto. split; auto. split; [intros x; auto|]. split; auto. split; auto. intros _ l Hm Hl. exfalso.
      unfold labels_empty in Ee. unfold matches in Hm. destruct (wild ls); [discriminate|]. destruct (labs ls); [auto|discriminate]. }
    assert (Le : el < n) by (eapply In_rules_lt; eauto). assert (Lt : r_to r < n) by (eapply (wf'_to _ (wfr_wf _ W)); eauto). rewrite (ent_nth app el), (ent_nth app (r_to r)) by lia. cbn [obind].
    assert (HL : lrep all ls) by (eapply (wfr_lrep _ W); eauto). set (to := ent app (r_to r)). set (ss := ent app el).
    assert (C : exists m, (match r_op r with POP => Some (merge_pop to ss ls ds all) | NOOP => Some (merge_noop to ss ls ds all)
          | PUSH => merge_push (Nat.eqb (r_to r) el) to ss (r_opl r) ls ds all | SWAP => merge_swap to ss (r_opl r) ls ds all end) = Some m /\ tgrow all to (fst m) (snd m) /\ closed_rule all ds r ls ss (fst m)).
    { assert (Hopl := wf'_opl _ (wfr_wf _ W) _ _ _ Hin). destruct (r_op r) eqn:Eo.
      - destruct (merge_push_ok all ds (r_opl r) ls to ss (Nat.eqb (r_to r) el) (HW _) (HW _) HL) as (m & E & G & K); [apply Hopl; auto|intros Es; apply Nat.eqb_eq in Es; unfold to, ss; rewrite Es; auto|].
        exists m. split; auto. split; auto. intros l Hm Hl. destruct (K l Hm Hl) as (K1 & K2 & K3). rewrite Eo. split; auto.
      - eexists. split; [reflexivity|]. apply merge_pop_ok; auto; apply HW.
      - destruct (merge_swap_ok all ds (r_opl r) ls to ss (HW _) (HW _) HL) as (m & E & G & K); [apply Hopl; auto|]. exists m. split; auto. split; auto. intros l Hm Hl. destruct (K l Hm Hl) as (K1 & K2). rewrite Eo. split; auto. split; auto. discriminate.
      - eexists. split; [reflexivity|]. apply merge_noop_ok; auto; apply HW. }
    destruct C as (m & Em & G & K). rewrite Em. cbn [obind]. destruct (update_state (fst m) (snd m)) as [u b] eqn:Eu. cbn [fst snd]. destruct (update_spec _ _ _ _ Eu) as (U1 & U2 & U3 & U4 & U5).
    assert (G' := G). destruct G as (G1 & G2 & G3 & G4). exists (upd app (r_to r) u), (if b then w ++ [r_to r] else w).
    assert (HE : forall p, ent (upd app (r_to r) u) p = if Nat.eqb (r_to r) p then u else ent app p) by (intros; apply ent_upd; lia).
    assert (IW : incl w (if b then w ++ [r_to r] else w)) by (destruct b; [intros x Hx; apply in_or_app; auto|intros x; auto]).
    assert (FW : flagged u -> In (r_to r) (if b then w ++ [r_to r] else w)).
    { intros Hf. destruct (U3 Hf) as [Hf2| ->]; [|apply in_or_app; cbn; auto]. apply IW, HF. unfold flagged in *. fold to. rewrite <- G3, <- G4. auto. }
    split; auto. split; [|split; [auto|split; [|split]]].
    - split; [rewrite upd_length; auto|]. split; [|split].
      + intros p. rewrite HE. destruct (Nat.eqb (r_to r) p); auto. apply tgrow_wft in G'. destruct G'. split; [rewrite U1|rewrite U2]; auto.
      + intros q Hq. destruct b; auto. apply in_app_or in Hq. destruct Hq as [Hq|[<-|[]]]; auto.
      + intros p Hf. rewrite HE in Hf. destruct (Nat.eqb_spec (r_to r) p) as [Ep|Ep]; [rewrite <- Ep|]; auto.
    - intros p. rewrite HE. destruct (Nat.eqb_spec (r_to r) p) as [Ep|Ep]; [rewrite <- Ep|split; [intros x; auto|split; [intros x; auto|auto]]]. rewrite U1, U2. split; [apply G1|]. split; [apply G2|].
      destruct (fst (snd m) || snd (snd m)) eqn:Ec; [left; apply FW, U4; auto|]. right. apply orb_false_iff in Ec. destruct Ec as [E1 E2]. destruct G1 as (_ & _ & G1), G2 as (_ & _ & G2). rewrite E1 in G1. rewrite E2 in G2. auto.
    - intros _. rewrite HE, Nat.eqb_refl. eapply closed_mono; [exact K|auto|auto|rewrite U1; intros x; auto|rewrite U2; intros x; auto].
    - assert (Sw := sum_upd _ (fun t => (all - length (t_tos t)) + (all - length (t_stk t))) app (r_to r) (ent app (r_to r)) u). rewrite ent_nth in Sw by lia. specialize (Sw eq_refl). fold (weight app) in Sw. fold to in Sw.
      change (list_sum (map (fun t => (all - length (t_tos t)) + (all - length (t_stk t))) (upd app (r_to r) u))) with (weight (upd app (r_to r) u)) in Sw. rewrite U1, U2 in Sw.
      destruct G1 as (V1 & _ & G1), G2 as (V2 & _ & G2). apply lvec_length in V1. apply lvec_length in V2. assert (length (t_tos to) <= length (t_tos (fst m))) by (destruct (fst (snd m)); [lia|rewrite G1; auto]).
      assert (length (t_stk to) <= length (t_stk (fst m))) by (destruct (snd (snd m)); [lia|rewrite G2; auto]). destruct b; [|lia]. rewrite app_length. cbn [length]. specialize (U5 eq_refl).
      apply orb_true_iff in U5. destruct U5 as [U5|U5]; [rewrite U5 in G1|rewrite U5 in G2]; lia.
  Qed.
  Lemma sat_rules_spec : forall el xs app w, app_ok app w -> incl xs (rules_at P el) ->
    exists app' w', ofold (sat_rule term ds all el) xs (app, w) = Some (app', w') /\ app_ok app' w' /\ incl w w' /\ app_grow app app' w' /\
      (In el w' \/ closed_at app' el xs) /\ length w' + weight app' <= length w + weight app.
  Proof.
    intros el xs. induction xs as [|[r ls] xs IH]; intros app w OK HX; cbn [ofold].
    - exists app, w. split; auto. split; auto. split; [intros x; auto|]. split; [intros p; split; [intros x; auto|split; [intros x; auto|auto]]|]. split; auto. right. intros r ls [].
    - destruct (sat_rule_spec el app w r ls OK) as (a1 & w1 & E1 & O1 & I1 & G1 & C1 & M1); [apply HX; cbn; auto|]. rewrite E1. cbn [obind].
      destruct (IH a1 w1 O1) as (a2 & w2 & E2 & O2 & I2 & G2 & C2 & M2); [intros x Hx; apply HX; cbn; auto|]. exists a2, w2. split; auto. split; auto. split; [intros x Hx; auto|]. split; [|split].
      + intros p. destruct (G1 p) as (A1 & A2 & A3), (G2 p) as (B1 & B2 & B3). split; [intros x Hx; auto|]. split; [intros x Hx; auto|]. destruct B3 as [|[B3 B4]]; auto. destruct A3 as [A3|[A3 A4]]; [left; auto|right]. split; congruence.
      + destruct C2 as [|C2]; auto. destruct (G2 el) as (B1 & B2 & [B3|[B3 B4]]); auto. destruct (G1 el) as (_ & _ & [A3|[A3 A4]]); [left; auto|]. right. intros r' l' [Eq|Hin] Ht; [|apply C2; auto]. injection Eq as <- <-.
        eapply closed_mono; [apply C1; auto|congruence|congruence| |]; apply G2.
      + lia.
  Qed.
  (** Every state is queued or its rules are taken into account. *)
  Definition sat_inv (app : list tos_t) (w : list nat) : Prop := app_ok app w /\ forall p, In p w \/ closed_at app p (rules_at P p).
  Lemma sat_step_spec : forall app el w, sat_inv app (el :: w) -> exists app' w', sat_step P term ds app el w = Some (app', w') /\ sat_inv app' w' /\
    (forall p, incl (t_tos (ent app p)) (t_tos (ent app' p))) /\ length w' + weight app' <= length w + weight app.
  Proof.
    intros app el w [(Ln & HW & Hw & HF) HC]. assert (Le : el < n) by (apply Hw; cbn; auto). unfold sat_step. rewrite ent_nth by lia. cbn [obind]. destruct (nth_error_ex _ _ _ Le) as [x Ex]. rewrite Ex. cbn [obind].
    set (app1 := upd app el _). assert (HE : forall p, ent app1 p = if Nat.eqb el p then mk_tos (t_tos (ent app el)) (t_stk (ent app el)) false false else ent app p) by (intros; apply ent_upd; lia).
    assert (HT : forall p, t_tos (ent app1 p) = t_tos (ent app p)) by (intros p; rewrite HE; destruct (Nat.eqb_spec el p) as [Ep|Ep]; [rewrite <- Ep|]; auto).
    assert (HS : forall p, t_stk (ent app1 p) = t_stk (ent app p)) by (intros p; rewrite HE; destruct (Nat.eqb_spec el p) as [Ep|Ep]; [rewrite <- Ep|]; auto).
    assert (O1 : app_ok app1 w).
    { split; [unfold app1; rewrite upd_length; auto|]. split; [intros p; split; [rewrite HT|rewrite HS]; apply HW|]. split; [intros; apply Hw; cbn; auto|].
      intros p Hf. rewrite HE in Hf. destruct (Nat.eqb_spec el p) as [Ep|Hn]; [destruct Hf; discriminate|]. destruct (HF p Hf); [congruence|auto]. }
    destruct (sat_rules_spec el (ps_rules x) app1 w O1) as (a2 & w2 & E2 & O2 & I2 & G2 & C2 & M2); [rewrite (nth_error_rules_at _ _ _ Ex); intros y; auto|].
    rewrite (nth_error_rules_at _ _ _ Ex) in C2. exists a2, w2. split; [rewrite <- E2; reflexivity|]. split; [split; auto|split].
    - intros p. destruct (Nat.eq_dec p el) as [->|Hn]; auto. destruct (G2 p) as (B1 & B2 & [B3|[B3 B4]]); auto. destruct (HC p) as [[Hp|Hp]|Hp]; [congruence|left; auto|]. right. intros r ls Hin Ht.
      rewrite HT in B3. rewrite HS in B4. destruct (G2 (r_to r)) as (D1 & D2 & _). rewrite HT in D1. rewrite HS in D2. eapply closed_mono; [apply Hp; eauto|auto|auto|auto|auto].
    - intros p. rewrite <- HT. apply G2.
    - assert (Sw := sum_upd _ (fun t => (all - length (t_tos t)) + (all - length (t_stk t))) app el (ent app el) (mk_tos (t_tos (ent app el)) (t_stk (ent app el)) false false)). rewrite ent_nth in Sw by lia. specialize (Sw eq_refl).
      fold app1 in Sw. cbn [t_tos t_stk] in Sw. change (weight app1 + ((all - length (t_tos (ent app el))) + (all - length (t_stk (ent app el)))) = weight app + ((all - length (t_tos (ent app el))) + (all - length (t_stk (ent app el))))) in Sw. lia.
  Qed.
  Lemma saturate_spec : forall fuel app w, sat_inv app w ->
    (exists app', saturate P term ds fuel app w = done app' /\ sat_inv app' [] /\ forall p, incl (t_tos (ent app p)) (t_tos (ent app' p))) \/
    (saturate P term ds fuel app w = Some None /\ fuel < length w + weight app).
  Proof.
    induction fuel as [|f IH]; intros app w HI; destruct w as [|el w]; cbn [saturate].
    - left. exists app. split; auto. split; auto. intros p x; auto.
    - right. split; auto. cbn. lia.
    - left. exists app. split; auto. split; auto. intros p x; auto.
    - destruct (sat_step_spec app el w HI) as (a1 & w1 & E1 & I1 & G1 & M1). rewrite E1. destruct (IH a1 w1 I1) as [(a2 & E2 & I2 & G2)|[E2 F2]].
      + left. exists a2. split; auto. split; auto. intros p x Hx. apply G2, G1; auto.
      + right. split; auto. cbn. lia.
  Qed.
  Lemma weight_bound : forall app, length app = n -> weight app <= 2 * all * n.
  Proof.
    intros app L. rewrite <- L. unfold weight. clear L. induction app as [|t app IH]; cbn [map length]; [apply Nat.le_0_l|]. rewrite lsum_cons, Nat.mul_succ_r. lia.
  Qed.
End Sat.

(** * The initial approximation *)
Definition init_push (P : pda) (init term : nat) : Prop := forall r ls, In (r, ls) (rules_at P init) -> r_to r <> term -> r_op r = PUSH.
Definition seeded (term : nat) (app : list tos_t) (xs : list (rule * labels)) : Prop :=
  forall r ls, In (r, ls) xs -> r_to r <> term -> labels_empty ls = false -> In (r_opl r) (t_tos (ent app (r_to r))).
Definition blank (app : list tos_t) (w : list nat) : Prop := forall p, In p w \/ (t_tos (ent app p) = [] /\ t_stk (ent app p) = []).
Lemma ent_repeat : forall n p, ent (repeat tos0 n) p = tos0.
Proof. intros. unfold ent. apply nth_repeat. Qed.
Lemma init_rules_spec : forall P init term xs app w, wfr P -> init_push P init term -> incl xs (rules_at P init) -> app_ok P app w -> blank app w ->
  exists app' w', ofold (init_rule term) xs (app, w) = Some (app', w') /\ app_ok P app' w' /\ blank app' w' /\ seeded term app' xs /\
    (forall p, incl (t_tos (ent app p)) (t_tos (ent app' p))) /\ length w' <= length w + length xs.
Proof.
  intros P init term xs. induction xs as [|[r ls] xs IH]; intros app w W HI HX OK HB; cbn [ofold].
  - exists app, w. split; auto. split; auto. split; auto. split; [intros r ls []|]. split; [intros p x; auto|cbn; lia].
  - assert (S1 : exists app1 w1, init_rule term (app, w) (r, ls) = Some (app1, w1) /\ app_ok P app1 w1 /\ blank app1 w1 /\ seeded term app1 [(r, ls)] /\
       (forall p, incl (t_tos (ent app p)) (t_tos (ent app1 p))) /\ length w1 <= S (length w)).
    { assert (Hin : In (r, ls) (rules_at P init)) by (apply HX; cbn; auto). unfold init_rule. cbn [fst snd]. destruct (Nat.eqb_spec (r_to r) term) as [Et|Et].
      { exists app, w. split; auto. split; auto. split; auto. split; [intros r' l' [Eq|[]] Ht; congruence|]. split; [intros p x; auto|lia]. }
      destruct (labels_empty ls) eqn:Ee. { exists app, w. split; auto. split; auto. split; auto. split; [intros r' l' [Eq|[]] Ht He; congruence|]. split; [intros p x; auto|lia]. }
      destruct OK as (Ln & HW & Hw & HF). assert (Lt : r_to r < pd_n P) by (eapply (wf'_to _ (wfr_wf _ W)); eauto). rewrite ent_nth by lia. cbn [obind].
      assert (Eo : r_op r = PUSH) by eauto. rewrite Eo. assert (Hopl : r_opl r < pd_nlab P) by (eapply (wf'_opl _ (wfr_wf _ W)); eauto). set (ss := ent app (r_to r)).
      set (ss1 := if negb (t_wt ss) && negb (t_wb ss) then fst (update_state ss (true, true)) else ss). set (w1 := if negb (t_wt ss) && negb (t_wb ss) then w ++ [r_to r] else w).
      assert (T1 : t_tos ss1 = t_tos ss /\ t_stk ss1 = t_stk ss). { unfold ss1. destruct (negb (t_wt ss) && negb (t_wb ss)); auto. unfold update_state. destruct (t_wt ss && t_wb ss); auto. }
      assert (Iw : In (r_to r) w1). { unfold w1. destruct (t_wt ss) eqn:E1; cbn [negb andb]; [apply HF; left; auto|]. destruct (t_wb ss) eqn:E2; cbn [negb andb]; [apply HF; right; auto|apply in_or_app; cbn; auto]. }
      assert (Iw2 : incl w w1) by (unfold w1; destruct (negb (t_wt ss) && negb (t_wb ss)); [intros x Hx; apply in_or_app; auto|intros x; auto]).
      destruct T1 as [T1 T2]. assert (WS : wft (pd_nlab P) ss1) by (split; [rewrite T1|rewrite T2]; apply HW). destruct (emplace_grow (pd_nlab P) (t_tos ss1) (r_opl r) (proj1 WS) Hopl) as (v & i & b & Ev & G1 & G2). rewrite Ev. cbn [obind fst snd].
      assert (HE : forall x p, ent (upd app (r_to r) x) p = if Nat.eqb (r_to r) p then x else ent app p) by (intros; apply ent_upd; lia).
      eexists _, _. split; [reflexivity|]. split; [|split; [|split; [|split]]].
      - split; [rewrite upd_length; auto|]. split; [|split].
        + intros p. rewrite HE. destruct (Nat.eqb (r_to r) p); auto. split; [apply G1|apply WS].
        + intros q Hq. unfold w1 in Hq. destruct (negb (t_wt ss) && negb (t_wb ss)); auto. apply in_app_or in Hq. destruct Hq as [Hq|[<-|[]]]; auto.
        + intros p Hf. rewrite HE in Hf. destruct (Nat.eqb_spec (r_to r) p) as [Ep|Ep]; [rewrite <- Ep; auto|auto].
      - intros p. rewrite HE. destruct (Nat.eqb_spec (r_to r) p) as [Ep|Ep]; [rewrite <- Ep; auto|]. destruct (HB p); auto.
      - intros r' l' [Eq|[]] _ _. injection Eq as <- <-. rewrite HE, Nat.eqb_refl. auto.
      - intros p. rewrite HE. destruct (Nat.eqb_spec (r_to r) p) as [Ep|Ep]; [|intros x; auto]. rewrite <- Ep. fold ss. rewrite <- T1. apply G1.
      - unfold w1. destruct (negb (t_wt ss) && negb (t_wb ss)); [rewrite app_length; cbn; lia|lia]. }
    destruct S1 as (a1 & w1 & E1 & O1 & B1 & K1 & I1 & L1). rewrite E1. cbn [obind]. destruct (IH a1 w1) as (a2 & w2 & E2 & O2 & B2 & K2 & I2 & L2); auto; [intros x Hx; apply HX; cbn; auto|].
    exists a2, w2. split; auto. split; auto. split; auto. split; [|split; [intros p x Hx; apply I2, I1; auto|cbn [length]; lia]]. intros r' l' [Eq|Hin] Ht He; [|eapply K2; eauto]. apply I2. apply (K1 r' l'); cbn; auto.
Qed.

(** * The top of the stack on runs *)
Lemma has_rule : forall P s, has P s -> exists r ls, In (r, ls) (rules_at P (s_from (fst s))) /\ matches (pd_nlab P) ls (s_pre (fst s)) /\ s_to (fst s) = r_to r /\ s_op (fst s) = sop_of r.
Proof. intros P s H. apply has_at in H. destruct H as (r & ls & H1 & H2 & H3 & H4 & _). eauto 8. Qed.
Lemma run_tops : forall P term app, wfr P -> sat_inv P term false app [] -> forall c ss c', chain c ss c' -> all_has P ss -> first_visit term ss ->
  (forall l w, snd c = l :: w -> l < pd_nlab P -> In l (t_tos (ent app (fst c)))) -> forall s, In s ss -> In (s_pre (fst s)) (t_tos (ent app (s_from (fst s)))).
Proof.
  intros P term app W [_ HC] c ss c' H. induction H as [c|c s c' ss c'' HS HCH IH]; intros HP HV HA x Hx; [destruct Hx|]. destruct (step_by_inv _ _ _ HS) as (w & -> & ->). cbn [fst snd] in HA.
  assert (Hs : has P s) by (apply HP; cbn; auto). assert (Hl := has_lt _ _ W Hs). assert (Ht : In (s_pre (fst s)) (t_tos (ent app (s_from (fst s))))) by (eapply HA; [reflexivity|tauto]).
  destruct Hx as [<-|Hx]; auto. apply IH; auto; [intros y Hy; apply HP; cbn; auto|intros y Hy; apply HV; cbn; auto|]. cbn [fst snd]. intros l w' E Ll.
  assert (Nt : s_to (fst s) <> term). { destruct ss as [|s2 ss]; [destruct Hx|]. inversion HCH as [|? ? ? ? ? HS2 HC2]; subst. destruct (step_by_inv _ _ _ HS2) as (w2 & E2 & _). injection E2 as E2 _. rewrite E2. apply HV. cbn; auto. }
  destruct (has_rule _ _ Hs) as (r & ls & Hin & Hm & Er & Eo). destruct (HC (s_from (fst s))) as [[]|HC']. rewrite Er in *. destruct (HC' r ls Hin Nt _ Hm Ht) as (K & _). rewrite Eo in E. unfold sop_of in E.
  destruct (r_op r); cbn in E; auto; injection E as <- _; auto.
Qed.
Definition above (h : nat) (c : config) (ss : list (srule * Z)) : Prop := forall ss1 s ss2 c1, ss = ss1 ++ s :: ss2 -> ss2 <> [] -> chain c ss1 c1 -> h < length (snd c1).
Lemma run_tops_ds : forall P term app, wfr P -> sat_inv P term true app [] -> forall c ss c', chain c ss c' -> all_has P ss -> first_visit term ss -> fst c' = term ->
  forall base v, above (length base) c ss -> snd c = v ++ base -> (forall l v', v = l :: v' -> In l (t_tos (ent app (fst c))) /\ incl v' (t_stk (ent app (fst c)))) ->
  forall s, In s ss -> s_to (fst s) = term \/ In (s_pre (fst s)) (t_tos (ent app (s_from (fst s)))).
Proof.
  intros P term app W [_ HC] c ss c' H. induction H as [c|c s c' ss c'' HS HCH IH]; intros HP HV Et base v HA Ev HT x Hx; [destruct Hx|]. assert (HS' := HS). destruct (step_by_inv _ _ _ HS) as (w & -> & ->). cbn [fst snd] in *.
  destruct ss as [|s2 ss]. { destruct Hx as [<-|[]]. inversion HCH. subst c''. left. auto. }
  assert (Hs : has P s) by (apply HP; cbn; auto). assert (HH := HA [] s (s2 :: ss) _ eq_refl ltac:(discriminate) (ch_nil _)). cbn [snd] in HH. rewrite Ev, app_length in HH.
  destruct v as [|l v]; [cbn in HH; lia|]. cbn in Ev. injection Ev as Ev1 Ev2. destruct (HT l v eq_refl) as [T1 T2]. rewrite <- Ev1 in T1. destruct Hx as [<-|Hx]; auto.
  assert (Nt : s_to (fst s) <> term). { inversion HCH as [|? ? ? ? ? HS2 HC2]; subst. destruct (step_by_inv _ _ _ HS2) as (w2 & E2 & _). injection E2 as E2 _. rewrite E2. apply HV. cbn; auto. }
  destruct (has_rule _ _ Hs) as (r & ls & Hin & Hm & Er & Eo). destruct (HC (s_from (fst s))) as [[]|HC']. rewrite Er in *. destruct (HC' r ls Hin Nt _ Hm T1) as (K & K2 & K3). specialize (K2 eq_refl). specialize (K3 eq_refl).
  assert (IH' := IH (fun y Hy => HP y (or_intror Hy)) (fun y Hy => HV y (or_intror Hy)) Et base).
  assert (AB : above (length base) (r_to r, apply_op (s_op (fst s)) (s_pre (fst s)) w) (s2 :: ss)).
  { intros ss1 y ss2 c1 E1 E2 E3. apply (HA (s :: ss1) y ss2); [cbn; rewrite E1; auto|auto|]. econstructor; eauto. }
  rewrite Eo in IH', AB. unfold sop_of in IH', AB. destruct (r_op r) eqn:Er2; cbn [apply_op] in *.
  - apply (IH' (r_opl r :: s_pre (fst s) :: v)); auto; [rewrite Ev2; auto|]. intros l' v' Eq. injection Eq as <- <-. split; auto. intros y [<-|Hy]; auto.
    apply K3; auto.
  - apply (IH' v); auto. intros l' v' ->. split; [apply K, T2; cbn; auto|]. intros y Hy. apply K2, T2. cbn; auto.
  - apply (IH' (r_opl r :: v)); auto; [rewrite Ev2; auto|]. intros l' v' Eq. injection Eq as <- <-. split; auto. intros y Hy; auto.
  - apply (IH' (s_pre (fst s) :: v)); auto; [rewrite Ev2; auto|]. intros l' v' Eq. injection Eq as <- <-. split; auto. intros y Hy; auto.
Qed.
(** The steps of a run that the final pruning keeps. *)
Definition keepable (init term : nat) (app : list tos_t) (s : srule * Z) : Prop :=
  s_from (fst s) = init \/ s_to (fst s) = term \/ In (s_pre (fst s)) (t_tos (ent app (s_from (fst s)))).
Lemma run_keepable : forall P init term ds app w ss c', wfr P -> init_push P init term -> seeded term app (rules_at P init) -> sat_inv P term ds app [] ->
  chain (init, w) ss c' -> all_has P ss -> first_visit term ss -> fst c' = term -> (ds = true -> stays_above (init, w) ss) -> forall s, In s ss -> keepable init term app s.
Proof.
  intros P init term ds app w ss c' W HI HS SI HC HP HV Et HD s Hs. inversion HC as [|c0 s1 c1 ss1 c2 ST HC1]; subst; [destruct Hs|]. destruct (step_by_inv _ _ _ ST) as (w1 & E1 & ->). injection E1 as E1 Ew.
  destruct Hs as [<-|Hs]; [left; auto|]. assert (H1 : has P s1) by (apply HP; cbn; auto). destruct (has_rule _ _ H1) as (r & ls & Hin & Hm & Er & Eo).
  assert (Nt : s_to (fst s1) <> fst c'). { destruct ss1 as [|s2 ss1]; [destruct Hs|]. inversion HC1 as [|? ? ? ? ? HS2 HC2]; subst. destruct (step_by_inv _ _ _ HS2) as (w2 & E2 & _). injection E2 as E2 _. rewrite E2. apply HV. cbn; auto. }
  assert (He : labels_empty ls = false). { unfold labels_empty. unfold matches in Hm. destruct (wild ls); auto. destruct (labs ls); [destruct Hm|auto]. }
  rewrite <- E1 in Hin. rewrite Er in Nt. assert (Op := HI r ls Hin Nt). assert (Sd := HS r ls Hin Nt He). rewrite Eo in HC1. unfold sop_of in HC1. rewrite Op, Er in HC1. cbn [apply_op] in HC1.
  assert (HP1 : all_has P ss1) by (intros y Hy; apply HP; cbn; auto). assert (HV1 : first_visit (fst c') ss1) by (intros y Hy; apply HV; cbn; auto). destruct ds.
  - right. refine (run_tops_ds P (fst c') app W SI _ _ _ HC1 HP1 HV1 eq_refl w [r_opl r] _ _ _ s Hs).
    + intros ss2 y ss3 c1 Eq N3 Hch. change (length w) with (length (snd (init, w))). apply (HD eq_refl (s1 :: ss2) y ss3 c1); [cbn; rewrite Eq; auto|discriminate|auto|]. econstructor; [exact ST|].
      rewrite Er, Eo. unfold sop_of. rewrite Op. exact Hch.
    + cbn. rewrite Ew. auto.
    + intros l v' Eq. injection Eq as <- <-. split; auto. intros y [].
  - right. right. refine (run_tops P (fst c') app W SI _ _ _ HC1 HP1 HV1 _ s Hs). cbn. intros l w' Eq _. injection Eq as <- _. auto.
Qed.

(** * The final pruning *)
Lemma intersect_ok : forall all ls ts, lrep all ls -> lvec all ts -> exists ls', intersect ls ts all = Some (ls', negb (labels_empty ls')) /\ lsub all ls' ls /\
  forall l, matches all ls l -> In l ts -> matches all ls' l.
Proof.
  intros all ls ts HL HT. destruct (Nat.eq_dec (length ts) all) as [E|E].
  - exists ls. unfold intersect. rewrite (proj2 (Nat.eqb_eq _ _) E). split; auto. split; [apply lsub_refl|]; auto.
  - assert (Ha : 0 < all). { assert (Z := lvec_length _ _ HT). lia. } destruct (intersect_spec all ls ts HL (proj1 (lvec_label_vec _ _) HT) Ha) as (ls' & b & E1 & L' & M' & _). exists ls'.
    assert (F : b = negb (labels_empty ls') /\ wild ls' = false).
    { unfold intersect in E1. apply Nat.eqb_neq in E. rewrite E in E1. cbn zeta in E1. cbn [labs] in E1. destruct (wild ls); [injection E1 as <- <-; auto|]. destruct (length (keep_common (labs ls) ts) =? all); [discriminate|]. injection E1 as <- <-. auto. }
    destruct F as [-> F]. split; auto. split; [|intros l H1 H2; apply M'; auto]. split; auto. split; [congruence|]. intros l Hm. apply M' in Hm. tauto.
Qed.
Lemma prune_rules_spec : forall term ts all xs, lreps all xs -> lvec all ts -> exists ys, prune_rules term ts all xs = Some ys /\ shrunk all xs ys /\
  forall r ls l, In (r, ls) xs -> matches all ls l -> r_to r = term \/ In l ts -> exists ls', In (r, ls') ys /\ matches all ls' l.
Proof.
  intros term ts all xs HL HT. induction xs as [|[r ls] xs IH]; cbn [prune_rules].
  - exists []. split; auto. split; [constructor|intros ? ? ? []].
  - destruct IH as (ys & E & HS & HK); [intros r' l' H'; apply (HL r'); cbn; auto|]. assert (Lr : lrep all ls) by (apply (HL r); cbn; auto). rewrite E. destruct (Nat.eqb_spec (r_to r) term) as [Et|Et].
    + cbn [obind]. eexists. split; [reflexivity|]. split; [apply sh_keep; auto; apply lsub_refl; auto|]. intros r' l' l [Eq|Hin] Hm Hc; [injection Eq as <- <-; exists ls; cbn; auto|].
      destruct (HK r' l' l Hin Hm Hc) as (ls' & H1 & H2). exists ls'. cbn; auto.
    + destruct (intersect_ok all ls ts Lr HT) as (ls' & E1 & L1 & M1). rewrite E1. cbn [obind fst snd]. eexists. split; [reflexivity|]. destruct (labels_empty ls') eqn:Ee; cbn [negb].
      * split; [apply sh_drop; auto|]. intros r' l' l [Eq|Hin] Hm Hc; [|eauto]. injection Eq as <- <-. exfalso. destruct Hc as [Hc|Hc]; [auto|]. specialize (M1 l Hm Hc). unfold labels_empty in Ee. unfold matches in M1.
        destruct (wild ls'); [discriminate|]. destruct (labs ls'); [auto|discriminate].
      * split; [apply sh_keep; auto|]. intros r' l' l [Eq|Hin] Hm Hc.
        -- injection Eq as <- <-. exists ls'. split; [cbn; auto|]. apply M1; auto. destruct Hc; [congruence|auto].
        -- destruct (HK r' l' l Hin Hm Hc) as (ls2 & H1 & H2). exists ls2. cbn; auto.
Qed.
Lemma prune_state_spec : forall P init term app i, wfr P -> i < pd_n P -> i <> term -> length app = pd_n P -> (forall p, wft (pd_nlab P) (ent app p)) ->
  exists P', prune_state init term app P i = Some P' /\ red P P' /\
    forall c ss c', chain c ss c' -> fst c' = term -> all_has P ss -> (forall s, In s ss -> keepable init term app s) -> all_has P' ss.
Proof.
  intros P init term app i W Li Nt La HW. unfold prune_state. destruct (Nat.eqb_spec i init) as [Ei|Ei]. { exists P. split; auto. split; [apply red_refl; auto|auto]. }
  rewrite ent_nth by lia. cbn [obind]. destruct (nth_error_ex _ _ _ Li) as [x Ex]. rewrite Ex. cbn [obind]. assert (HL : lreps (pd_nlab P) (ps_rules x)) by (rewrite (nth_error_rules_at _ _ _ Ex); apply W).
  destruct (prune_rules_spec term (t_tos (ent app i)) (pd_nlab P) (ps_rules x) HL (proj1 (HW i))) as (ys & E & HS & HK). rewrite E. cbn [obind].
  change (mk_pda _ _) with (with_rules P i x ys). destruct (with_rules_red P i x ys W Ex HS) as (R1 & A1 & _). set (P1 := with_rules P i x ys) in *.
  assert (K1 : forall c ss c', chain c ss c' -> fst c' = term -> all_has P ss -> (forall s, In s ss -> keepable init term app s) -> all_has P1 ss).
  { intros c ss c' HC Et HP HKp s Hs. assert (Z := HP s Hs). apply has_at in Z. destruct Z as (r & ls & Hin & Hm & Ht & Ho & Hw). apply has_at. rewrite (rd_nlab _ _ R1), A1. destruct (Nat.eqb_spec (s_from (fst s)) i) as [Es|Es]; [|exists r, ls; auto].
    rewrite Es, <- (nth_error_rules_at _ _ _ Ex) in Hin. destruct (HK r ls _ Hin Hm) as (ls' & H1 & H2); [|exists r, ls'; auto]. destruct (HKp s Hs) as [Z|[Z|Z]]; [congruence|left; congruence|right; rewrite Es in Z; auto]. }
  destruct ys as [|y ys]; [|exists P1; auto]. assert (Li1 : i < pd_n P1) by (rewrite (rd_n _ _ R1); auto). destruct (clear_red P1 i (rd_wf _ _ R1) Li1) as (P2 & E2 & R2 & _). exists P2. split; auto. split; [eapply red_trans; eauto|].
  intros c ss c' HC Et HP HKp s Hs. assert (Q := K1 c ss c' HC Et HP HKp). assert (NF : forall y, In y ss -> s_from (fst y) <> i).
  { intros y Hy Eq. assert (Z := Q y Hy). apply has_at in Z. destruct Z as (r & ls & Hin & _). rewrite A1, Eq, Nat.eqb_refl in Hin. destruct Hin. }
  refine (clear_has P1 i P2 s (rd_wf _ _ R1) Li1 E2 (Q s Hs) (NF s Hs) _). destruct (chain_next _ _ _ HC s Hs) as [Z|(y & Y1 & Y2 & _)]; [congruence|]. rewrite <- Y2. auto.
Qed.
Lemma prune_all_spec : forall P init app, wfr P -> length app = pd_n P -> (forall p, wft (pd_nlab P) (ent app p)) ->
  exists P', prune_all init 0 app P = Some P' /\ red P P' /\
    forall c ss c', chain c ss c' -> fst c' = 0 -> all_has P ss -> (forall s, In s ss -> keepable init 0 app s) -> all_has P' ss.
Proof.
  intros P init app W La HW. unfold prune_all.
  assert (G : forall l P1, red P P1 -> (forall i, In i l -> 0 < i < pd_n P) ->
    exists P', ofold (prune_state init 0 app) l P1 = Some P' /\ red P P' /\ forall c ss c', chain c ss c' -> fst c' = 0 -> all_has P1 ss -> (forall s, In s ss -> keepable init 0 app s) -> all_has P' ss).
  { induction l as [|i l IH]; intros P1 R Hl; cbn [ofold]; [exists P1; auto|]. assert (Hi : 0 < i < pd_n P) by (apply Hl; cbn; auto). assert (N := rd_n _ _ R).
    destruct (prune_state_spec P1 init 0 app i) as (P2 & E2 & R2 & K2); [apply R|lia|lia|lia|rewrite (rd_nlab _ _ R); auto|]. rewrite E2. cbn [obind].
    destruct (IH P2) as (P3 & E3 & R3 & K3); [eapply red_trans; eauto|intros; apply Hl; cbn; auto|]. exists P3. split; auto. split; auto. intros c ss c' HC Et HP HK. apply (K3 c ss c'); auto. apply (K2 c ss c'); auto. }
  destruct (G (seq 1 (pd_n P - 1)) P) as (P' & E & R & K); [apply red_refl; auto|intros i Hi; apply in_seq in Hi; lia|]. exists P'. auto.
Qed.

(** * Sizes *)
Lemma rule_size_le : forall P P' term r ls ls', pd_nlab P' = pd_nlab P -> lsub (pd_nlab P) ls' ls -> rule_size P' term (r, ls') <= rule_size P term (r, ls).
Proof.
  intros P P' term r ls ls' En (L1 & L2 & L3). unfold rule_size. cbn [fst snd]. destruct (r_to r =? term); auto. rewrite En. unfold labels_empty in *. unfold matches in L3. destruct (wild ls') eqn:E'; cbn [negb andb].
  - rewrite (L2 eq_refl). auto.
  - destruct L1 as [L1 _]. apply lvec_label_vec in L1. assert (Z := lvec_length _ _ L1). destruct (wild ls) eqn:E; cbn [negb andb].
    + destruct (labs ls'); [lia|auto].
    + assert (length (labs ls') <= length (labs ls)) by (apply NoDup_incl_length; [apply ssorted_NoDup, L1|intros x; auto]). destruct (labs ls'); [lia|]. destruct (labs ls); [cbn in *; lia|auto].
Qed.
Lemma list_sum_concat : forall A (f : A -> nat) ls, list_sum (map f (concat ls)) = list_sum (map (fun l => list_sum (map f l)) ls).
Proof. intros A f. induction ls as [|l ls IH]; auto. cbn [concat map]. rewrite map_app, list_sum_app, lsum_cons, IH. auto. Qed.
Lemma tl_states : forall B (f : list (rule * labels) -> B) P, map (fun s => f (ps_rules s)) (tl (pd_states P)) = map (fun p => f (rules_at P p)) (seq 1 (pd_n P - 1)).
Proof.
  intros B f P. assert (H := map_states B f P). unfold rules_at, pd_n in *. destruct (pd_states P) as [|s l]; auto. cbn [map length seq tl] in *. injection H as H. rewrite H. f_equal. f_equal. lia.
Qed.
Lemma shrunk_length : forall all xs ys, shrunk all xs ys -> length ys <= length xs.
Proof. intros all xs ys H. induction H; cbn; lia. Qed.
Lemma shrunk_size : forall P P' term xs ys, pd_nlab P' = pd_nlab P -> shrunk (pd_nlab P) xs ys -> list_sum (map (rule_size P' term) ys) <= list_sum (map (rule_size P term) xs).
Proof.
  intros P P' term xs ys En H. induction H as [|x xs ys H IH|r ls ls' xs ys HL H IH]; auto; cbn [map]; rewrite !lsum_cons; [lia|]. assert (Z := rule_size_le P P' term r ls ls' En HL). lia.
Qed.
Lemma pda_size_spec : forall P init term, init < pd_n P -> pda_size P init term = Some (1 + length (rules_at P init) + list_sum (map (fun p => list_sum (map (rule_size P term) (rules_at P p))) (seq 1 (pd_n P - 1)))).
Proof.
  intros P init term L. unfold pda_size. destruct (nth_error_ex _ _ _ L) as [x Ex]. rewrite Ex. cbn [obind]. rewrite (nth_error_rules_at _ _ _ Ex), list_sum_concat, map_map.
  rewrite (tl_states _ (fun xs => list_sum (map (rule_size P term) xs))). auto.
Qed.
Lemma size_le : forall P P' init term, red P P' -> init < pd_n P -> exists a b, pda_size P init term = Some a /\ pda_size P' init term = Some b /\ b <= a.
Proof.
  intros P P' init term R L. rewrite !pda_size_spec by (rewrite ?(rd_n _ _ R); auto). eexists _, _. split; [reflexivity|]. split; [reflexivity|]. rewrite (rd_n _ _ R).
  assert (H1 := shrunk_length _ _ _ (rd_rules _ _ R init)).
  assert (H2 := sum_le _ (fun p => list_sum (map (rule_size P' term) (rules_at P' p))) (fun p => list_sum (map (rule_size P term) (rules_at P p))) (seq 1 (pd_n P - 1)) (fun p _ => shrunk_size P P' term _ _ (rd_nlab _ _ R) (rd_rules _ _ R p))). lia.
Qed.

(** * reduce *)
Lemma init_push_red : forall P P' init term, red P P' -> init_push P init term -> init_push P' init term.
Proof. intros P P' init term R H r ls Hin Ht. destruct (shrunk_In _ _ _ (rd_rules _ _ R _) _ _ Hin) as (l & H1 & _). eauto. Qed.
Lemma sat_ready : forall P P' term ds app w, red P P' -> app_ok P app w -> blank app w -> sat_inv P' term ds app w.
Proof.
  intros P P' term ds app w R (H1 & H2 & H3 & H4) HB. split.
  - split; [rewrite (rd_n _ _ R); auto|]. split; [rewrite (rd_nlab _ _ R); auto|]. split; [rewrite (rd_n _ _ R); auto|auto].
  - intros p. destruct (HB p) as [|[B1 B2]]; auto. right. intros r ls _ _ l _ Hl. rewrite B1 in Hl. destruct Hl.
Qed.
Lemma seeded_red : forall P P' term app app' init, red P P' -> seeded term app (rules_at P init) -> (forall p, incl (t_tos (ent app p)) (t_tos (ent app' p))) -> seeded term app' (rules_at P' init).
Proof.
  intros P P' term app app' init R H HI r ls Hin Ht He. destruct (shrunk_In _ _ _ (rd_rules _ _ R _) _ _ Hin) as (l & H1 & HL & HL2 & HL3). apply HI. apply (H r l); auto.
  unfold labels_empty in *. unfold matches in HL3. destruct (wild l); auto. destruct (wild ls) eqn:Ew; [discriminate (HL2 eq_refl)|]. destruct (labs ls) as [|y ys]; [discriminate|]. specialize (HL3 y (or_introl eq_refl)). destruct (labs l); [destruct HL3|auto].
Qed.

(** * target_tos_prune leaves no rule after which the run is stuck *)
Definition useful (P : pda) (q g : nat) : Prop := exists r ls, In (r, ls) (rules_at P q) /\ matches (pd_nlab P) ls g.
Definition goes_on (U : nat -> Prop) (r : rule) (l : nat) : Prop := match r_op r with PUSH | SWAP => U (r_opl r) | NOOP => U l | POP => True end.
Definition into (P : pda) (p s : nat) (U : nat -> Prop) : Prop := forall r ls l, In (r, ls) (rules_at P p) -> r_to r = s -> matches (pd_nlab P) ls l -> goes_on U r l.
Definition settled (P : pda) (s : nat) : Prop := forall p, into P p s (useful P s).
Lemma goes_on_mono : forall (U V : nat -> Prop) r l, (forall g, U g -> V g) -> goes_on U r l -> goes_on V r l.
Proof. intros U V r l H. unfold goes_on. destruct (r_op r); auto. Qed.
Lemma into_red : forall P P' p s (U V : nat -> Prop), red P P' -> (forall g, U g -> V g) -> into P p s U -> into P' p s V.
Proof.
  intros P P' p s U V R HU H r ls l Hin Er Hm. destruct (shrunk_In _ _ _ (rd_rules _ _ R p) _ _ Hin) as (l0 & H1 & _ & _ & H2). rewrite (rd_nlab _ _ R) in Hm. eapply goes_on_mono; [exact HU|]. eapply H; eauto.
Qed.
Lemma useful_loop_some : forall all rules acc u, lreps all rules -> useful_loop all rules acc = Some u -> forall l, In l u -> In l acc \/ exists r ls, In (r, ls) rules /\ matches all ls l.
Proof.
  induction rules as [|[r ls] rules IH]; intros acc u HR E l Hl; cbn [useful_loop] in E; [injection E as <-; auto|]. destruct (wild ls) eqn:Ew; [discriminate|]. destruct (_ =? all); [discriminate|].
  destruct (IH _ _ (fun r' l' H' => HR r' l' (or_intror H')) E l Hl) as [H|(r' & l' & H1 & H2)]; [|right; exists r', l'; cbn; auto].
  assert (Z : forall xs acc, In l (set_insert acc xs) -> In l acc \/ In l xs).
  { unfold set_insert. induction xs as [|x xs IHx]; intros a Ha; cbn in *; auto. destruct (IHx _ Ha) as [Hx|]; auto. apply vs_emplace_In in Hx. destruct Hx as [->|]; auto. }
  apply Z in H. destruct H as [|H]; auto. right. exists r, ls. split; [cbn; auto|]. unfold matches. rewrite Ew. auto.
Qed.
Lemma useful_loop_none : forall all rules acc, lreps all rules -> lvec all acc -> useful_loop all rules acc = None -> forall l, l < all -> In l acc \/ exists r ls, In (r, ls) rules /\ matches all ls l.
Proof.
  induction rules as [|[r ls] rules IH]; intros acc HR HA E l Ll; cbn [useful_loop] in E; [discriminate|]. assert (HL : lrep all ls) by (apply (HR r); cbn; auto). destruct (wild ls) eqn:Ew.
  - right. exists r, ls. split; [cbn; auto|]. unfold matches. rewrite Ew. auto.
  - destruct HL as [HL _]. destruct (set_insert_spec all (labs ls) acc HA) as [I1 I2]; [apply HL|].
    assert (Z : In l (set_insert acc (labs ls)) -> In l acc \/ exists r0 ls0, In (r0, ls0) ((r, ls) :: rules) /\ matches all ls0 l).
    { intros H. apply I2 in H. destruct H as [|H]; auto. right. exists r, ls. split; [cbn; auto|]. unfold matches. rewrite Ew. auto. }
    destruct (Nat.eqb_spec (length (set_insert acc (labs ls))) all) as [E1|E1].
    + apply Z. eapply full_lvec; eauto.
    + destruct (IH _ (fun r' l' H' => HR r' l' (or_intror H')) I1 E l Ll) as [H|(r' & l' & H1 & H2)]; auto. right. exists r', l'. cbn; auto.
Qed.
Lemma filter_rule_passes : forall all s u x l, lrep all (snd x) -> lvec all u -> r_to (fst x) = s -> matches all (snd (fst (filter_rule s u x))) l -> goes_on (fun g => In g u) (fst x) l.
Proof.
  intros all s u [r ls] l HL HU Er Hm. cbn [fst snd] in *. unfold filter_rule in Hm. cbn [fst snd] in Hm. rewrite (proj2 (Nat.eqb_eq _ _) Er) in Hm. unfold goes_on.
  assert (C : matches all (snd (fst (if negb (labels_empty ls) && negb (memb (r_opl r) u) then ((r, no_labels), true) else ((r, ls), false)))) l -> In (r_opl r) u).
  { destruct (labels_empty ls) eqn:Ee; cbn; [intros H; exfalso; unfold labels_empty in Ee; unfold matches in H; destruct (wild ls); [discriminate|]; destruct (labs ls); [auto|discriminate]|].
    destruct (memb (r_opl r) u) eqn:Em; cbn; [intros _; apply memb_In; auto|]. intros []. }
  destruct (r_op r); auto. cbn [fst snd] in Hm. apply (noop_pre_filter_spec all ls u HL (proj1 (lvec_label_vec _ _) HU)) in Hm. tauto.
Qed.
Lemma filter_rules_same : forall all s u xs, lreps all xs -> lvec all u -> existsb snd (map (filter_rule s u) xs) = false -> map fst (map (filter_rule s u) xs) = xs.
Proof.
  induction xs as [|x xs IH]; intros HR HU E; cbn [map existsb] in *; auto. apply orb_false_iff in E. destruct E as [E1 E2]. destruct x as [r ls].
  assert (F := filter_rule_spec all s u (r, ls) (HR r ls (or_introl eq_refl)) HU). cbn zeta in F. rewrite E1 in F. destruct F as (_ & _ & _ & F). rewrite F, IH; auto. intros r' l' H'. apply (HR r'). cbn; auto.
Qed.

Definition finv (term : nat) (w : list nat) (inw : list bool) : Prop := forall q, q <> term -> nth_error inw q = Some true -> In q w.
Lemma filter_pre_ex : forall term s u P w inw p P' w' inw', wfr P -> lvec (pd_nlab P) u -> p < pd_n P -> length inw = pd_n P -> finv term w inw ->
  filter_pre s u (P, (w, inw)) p = Some (P', (w', inw')) ->
  into P' p s (fun g => In g u) /\ incl w w' /\ finv term w' inw' /\ forall q, q <> term -> In q w' \/ rules_at P' q = rules_at P q.
Proof.
  intros term s u P w inw p P' w' inw' W HU Lp Li HF E. unfold filter_pre in E. cbn [fst snd] in E. destruct (nth_error_ex _ _ _ Lp) as [x Ex]. rewrite Ex in E. cbn [obind] in E.
  set (rs := map (filter_rule s u) (ps_rules x)) in *. change (mk_pda _ _) with (with_rules P p x (map fst rs)) in E. set (P1 := with_rules P p x (map fst rs)) in *.
  assert (HL : lreps (pd_nlab P) (ps_rules x)) by (rewrite (nth_error_rules_at _ _ _ Ex); apply W).
  destruct (with_rules_red P p x (map fst rs) W Ex) as (HR & R1 & R2); [apply filter_rules_shrunk; auto|]. fold P1 in HR, R1, R2.
  assert (A1 : into P1 p s (fun g => In g u)).
  { intros r ls l Hin Er Hm. rewrite R1, Nat.eqb_refl in Hin. rewrite (rd_nlab _ _ HR) in Hm. unfold rs in Hin. rewrite map_map in Hin. apply in_map_iff in Hin. destruct Hin as ([r0 l0] & Eq & Hin).
    assert (F := filter_rule_spec (pd_nlab P) s u (r0, l0) (HL _ _ Hin) HU). cbn zeta in F. destruct F as (F1 & _). rewrite Eq in F1. cbn in F1. subst r0.
    apply (filter_rule_passes (pd_nlab P) s u (r, l0) l (HL _ _ Hin) HU Er). rewrite Eq. auto. }
  destruct (existsb snd rs) eqn:Eb.
  - cbn [visit] in E. assert (Lp' : p < length inw) by lia. destruct (nth_error_ex _ _ _ Lp') as [b Ebb]. rewrite Ebb in E. cbn [obind] in E. destruct b; cbn [obind] in E; injection E as <- <- <-.
    + split; auto. split; [intros q; auto|]. split; auto. intros q Hq. rewrite R1. destruct (Nat.eqb_spec q p) as [->|]; auto.
    + split; auto. split; [intros q Hq; apply in_or_app; auto|]. split.
      * intros q Hq Hn. apply in_or_app. destruct (Nat.eq_dec p q) as [->|Hp]; [right; cbn; auto|]. rewrite nth_error_upd_neq in Hn by auto. auto.
      * intros q Hq. rewrite R1. destruct (Nat.eqb_spec q p) as [->|]; auto. left. apply in_or_app. cbn; auto.
  - injection E as <- <- <-. split; auto. split; [intros q; auto|]. split; auto. intros q Hq. right. rewrite R1. destruct (Nat.eqb_spec q p) as [->|]; auto. unfold rs. rewrite filter_rules_same with (all := pd_nlab P); auto.
    apply nth_error_rules_at; auto.
Qed.
Lemma filter_pres_ex : forall term s u ps P w inw P' w' inw', wfr P -> lvec (pd_nlab P) u -> (forall p, In p ps -> p < pd_n P) -> length inw = pd_n P -> (forall q, In q w -> q < pd_n P) -> finv term w inw ->
  ofold (filter_pre s u) ps (P, (w, inw)) = Some (P', (w', inw')) ->
  (forall p, In p ps -> into P' p s (fun g => In g u)) /\ incl w w' /\ finv term w' inw' /\ forall q, q <> term -> In q w' \/ rules_at P' q = rules_at P q.
Proof.
  intros term s u ps. induction ps as [|p ps IH]; intros P w inw P' w' inw' W HU Hp Li Hw HF E; cbn [ofold] in E.
  - injection E as <- <- <-. split; [intros p []|]. split; [intros q; auto|]. split; auto.
  - destruct (filter_pre_spec s u P w inw p) as (P1 & w1 & i1 & E1 & R1 & _ & L1 & W1 & _ & _); auto; [apply Hp; cbn; auto|]. rewrite E1 in E. cbn [obind] in E.
    destruct (filter_pre_ex term s u P w inw p P1 w1 i1) as (A1 & A2 & A3 & A4); auto; [apply Hp; cbn; auto|]. assert (N := rd_n _ _ R1). assert (NL := rd_nlab _ _ R1).
    assert (HP1 : forall q, In q ps -> q < pd_n P1) by (intros q Hq; rewrite N; apply Hp; cbn; auto).
    destruct (IH P1 w1 i1 P' w' inw') as (B1 & B2 & B3 & B4); auto; try (rewrite ?N, ?NL; auto; fail); [apply R1|].
    destruct (filter_pres_spec s u ps P1 w1 i1) as (P2 & w2 & i2 & E2 & R2 & _); auto; try (rewrite ?N, ?NL; auto; fail); [apply R1|]. rewrite E in E2. injection E2 as <- <- <-.
    split; [|split; [intros q Hq; auto|split; auto]].
    + intros q [<-|Hq]; auto. exact (into_red P1 P' p s _ _ R2 (fun g H => H) A1).
    + intros q Hq. destruct (B4 q Hq) as [|E4]; auto. destruct (A4 q Hq) as [|E5]; auto. right. congruence.
Qed.
Definition tinv (term : nat) (P : pda) (w : list nat) (inw : list bool) : Prop := finv term w inw /\ forall q, q < pd_n P -> q <> term -> In q w \/ settled P q.
Lemma target_step_ex : forall term P s w inw P' w' inw', wfr P -> s < pd_n P -> length inw = pd_n P -> (forall q, In q w -> q < pd_n P) -> tinv term P (s :: w) inw ->
  target_step term P s w inw = Some (P', (w', inw')) -> tinv term P' w' inw'.
Proof.
  intros term P s w inw P' w' inw' W Ls Li Hw [HF HS] E. destruct (target_step_spec term P s w inw W Ls Li Hw) as (P1 & w1 & i1 & E1 & R & _). rewrite E in E1. injection E1 as <- <- <-.
  unfold target_step in E. destruct (Nat.eqb_spec s term) as [Et|Et].
  { injection E as <- <- <-. split; [intros q Hq Hn; destruct (HF q Hq Hn); [congruence|auto]|]. intros q Lq Hq. destruct (HS q Lq Hq) as [[|]|]; auto. congruence. }
  destruct (nth_error_ex _ _ _ Ls) as [x Ex]. rewrite Ex in E. cbn [obind] in E. assert (HL : lreps (pd_nlab P) (ps_rules x)) by (rewrite (nth_error_rules_at _ _ _ Ex); apply W).
  assert (HF1 : finv term w (upd inw s false)).
  { intros q Hq Hn. destruct (Nat.eq_dec s q) as [->|Hs]; [rewrite nth_error_upd_eq in Hn by lia; discriminate|]. rewrite nth_error_upd_neq in Hn by auto. destruct (HF q Hq Hn); [congruence|auto]. }
  destruct (useful_loop (pd_nlab P) (ps_rules x) []) as [u|] eqn:Eu.
  - destruct (useful_loop_spec _ _ _ _ HL ltac:(split; [constructor|intros ? []]) Eu) as (HU & _ & U2). assert (U3 := useful_loop_some _ _ _ _ HL Eu).
    assert (HPr : forall p, In p (ps_pre x) -> p < pd_n P) by (intros p Hp; rewrite (nth_error_pres_at _ _ _ Ex) in Hp; eapply (wf'_pre_lt _ (wfr_wf _ W)); eauto).
    destruct (filter_pres_ex term s u (ps_pre x) P w (upd inw s false) P' w' inw') as (A1 & A2 & A3 & A4); auto; [rewrite upd_length; auto|]. split; auto. rewrite (rd_n _ _ R).
    intros q Lq Hq. destruct (in_dec Nat.eq_dec q w') as [Hin|Hni]; auto. right. destruct (A4 q Hq) as [|E4]; [contradiction|].
    assert (US : forall g, useful P q g -> useful P' q g) by (intros g (r & ls & H1 & H2); exists r, ls; rewrite E4, (rd_nlab _ _ R); auto).
    destruct (Nat.eq_dec q s) as [->|Hqs].
    + intros p. assert (Z : forall g, In g u -> useful P' s g). { intros g Hg. apply US. destruct (U3 g Hg) as [[]|(r & ls & H1 & H2)]. exists r, ls. rewrite <- (nth_error_rules_at _ _ _ Ex). auto. }
      intros r ls l Hin Er Hm. eapply goes_on_mono; [exact Z|]. apply (A1 p) with (ls := ls); auto. rewrite (nth_error_pres_at _ _ _ Ex), <- Er. destruct (shrunk_In _ _ _ (rd_rules _ _ R p) _ _ Hin) as (l0 & H1 & _).
      eapply (wf'_pre _ (wfr_wf _ W)); eauto.
    + destruct (HS q Lq Hq) as [[|Hi]|Hst]; [congruence|exfalso; auto|]. intros p. exact (into_red P P' p q _ _ R US (Hst p)).
  - injection E as <- <- <-. split; auto. intros q Lq Hq. destruct (Nat.eq_dec q s) as [->|Hqs].
    + right. intros p r ls l Hin Er Hm. assert (Z : forall g, g < pd_nlab P -> useful P s g).
      { intros g Lg. destruct (useful_loop_none _ _ _ HL ltac:(split; [constructor|intros ? []]) Eu g Lg) as [[]|(r0 & l0 & H1 & H2)]. exists r0, l0. rewrite <- (nth_error_rules_at _ _ _ Ex). auto. }
      assert (Ho := wf'_opl _ (wfr_wf _ W) _ _ _ Hin). unfold goes_on. destruct (r_op r); auto; apply Z; auto. eapply lrep_matches_lt; eauto. eapply (wfr_lrep _ W); eauto.
    + destruct (HS q Lq Hq) as [[|]|]; auto. congruence.
Qed.
Lemma target_loop_ex : forall term fuel P w inw P', wfr P -> length inw = pd_n P -> (forall q, In q w -> q < pd_n P) -> tinv term P w inw ->
  target_loop term fuel P w inw = done P' -> forall q, q < pd_n P' -> q <> term -> settled P' q.
Proof.
  intros term. induction fuel as [|f IH]; intros P w inw P' W Li Hw HI E; destruct w as [|s w]; cbn [target_loop] in E; try discriminate.
  - injection E as <-. intros q Lq Hq. destruct HI as [_ HI]. destruct (HI q Lq Hq) as [[]|]; auto.
  - injection E as <-. intros q Lq Hq. destruct HI as [_ HI]. destruct (HI q Lq Hq) as [[]|]; auto.
  - assert (Ls : s < pd_n P) by (apply Hw; cbn; auto). assert (Hw' : forall q, In q w -> q < pd_n P) by (intros; apply Hw; cbn; auto).
    destruct (target_step_spec term P s w inw W Ls Li Hw') as (P1 & w1 & i1 & E1 & R & L1 & W1 & _). rewrite E1 in E.
    apply (IH P1 w1 i1 P'); auto; [apply R|rewrite (rd_n _ _ R); auto|rewrite (rd_n _ _ R); auto|]. apply (target_step_ex term P s w inw P1 w1 i1); auto.
Qed.
Lemma target_ex : forall term fuel P P', wfr P -> target_tos_prune fuel P term = done P' -> no_dead_end (pda_wrules P') term.
Proof.
  intros term fuel P P' W E s v Hs Nt. change (has P' (s, v)) in Hs. assert (T : within _ (fun fuel => target_tos_prune fuel P term) _) by (apply target_within; auto). destruct (T fuel) as [(P1 & E1 & R & _)|[E1 _]]; rewrite E in E1; [|discriminate]. injection E1 as <-.
  assert (Lt := proj1 (proj2 (has_lt _ _ (rd_wf _ _ R) Hs))). cbn [fst] in Lt.
  assert (ST : settled P' (s_to s)).
  { apply (target_loop_ex term fuel P (seq 0 (pd_n P)) (repeat true (pd_n P)) P' W); auto; [apply repeat_length|intros q Hq; apply in_seq in Hq; lia|].
    split; [intros q _ Hn; apply nth_error_lt in Hn; rewrite repeat_length in Hn; apply in_seq; lia|]. intros q Lq _. left. apply in_seq. lia. }
  assert (Z : forall g, useful P' (s_to s) g -> exists y u, pda_wrules P' y u /\ s_from y = s_to s /\ s_pre y = g).
  { intros g (r & ls & H1 & H2). exists (mk_srule (s_to s) g (r_to r) (sop_of r)), (r_w r). split; auto. apply (has_at P' (_, _)). exists r, ls. cbn. auto. }
  destruct (has_rule _ _ Hs) as (r & ls & Hin & Hm & Er & Eo). cbn [fst] in *. assert (G := ST _ r ls _ Hin (eq_sym Er) Hm). rewrite Eo. unfold goes_on in G. unfold sop_of. destruct (r_op r); auto.
Qed.

Definition is_ds (aggr : nat) : bool := Nat.eqb aggr 2 || Nat.eqb aggr 4.
Definition keeps_runs (aggr init : nat) (P P' : pda) : Prop :=
  forall w ss c', chain (init, w) ss c' -> fst c' = 0 -> first_visit 0 ss -> (is_ds aggr = true -> stays_above (init, w) ss) -> all_has P ss -> all_has P' ss.
Definition ends_runs (P P' : pda) : Prop := forall c ss c', chain c ss c' -> fst c' = 0 -> all_has P ss -> all_has P' ss.
Lemma target_opt : forall aggr P, wfr P -> within (pd_n P + mu P) (fun fuel => if Nat.leb 3 aggr then target_tos_prune fuel P 0 else done P) (fun P' => red P P' /\ ends_runs P P' /\ (3 <= aggr -> no_dead_end (pda_wrules P') 0)).
Proof.
  intros aggr P W. destruct (Nat.leb_spec 3 aggr).
  - intros fuel. destruct (target_within 0 P W fuel) as [(P' & E & H1 & H2)|]; [|right; auto]. left. exists P'. split; auto. split; auto. split; auto. intros _. eapply target_ex; eauto.
  - apply within_done. split; [apply red_refl; auto|]. split; [intros c ss c' _ _ K; auto|lia].
Qed.
(** What the pruning of level one leaves out. *)
Definition connected (P : pda) (init : nat) (s : srule) : Prop := greach (succ_edge P) init (s_from s) /\ greach (pre_edge P) 0 (s_to s).
Theorem reduce_spec : forall P aggr init, wfr P -> init < pd_n P -> init_push P init 0 ->
  exists b, within b (fun fuel => reduce fuel P aggr init 0) (fun r => red P (fst r) /\ snd (snd r) <= fst (snd r) /\ pda_size P init 0 = Some (fst (snd r)) /\ pda_size (fst r) init 0 = Some (snd (snd r)) /\ keeps_runs aggr init P (fst r) /\
    (0 < aggr -> forall s w, pda_wrules (fst r) s w -> connected P init s) /\ (3 <= aggr -> no_dead_end (pda_wrules (fst r)) 0)).
Proof.
  intros P aggr init W Li HI. assert (L0 : 0 < pd_n P) by lia. assert (Sz : pda_size P init 0 = Some _) by (apply pda_size_spec; auto). set (cnt := 1 + length (rules_at P init) + _) in Sz. unfold reduce. rewrite Sz. cbn [obind]. destruct (Nat.eqb_spec aggr 0) as [->|Ha].
  { exists 0. apply within_done. cbn [fst snd]. split; [apply red_refl; auto|]. split; auto. split; auto. split; auto. split; [intros w ss c' _ _ _ _ H; auto|lia]. }
  destruct (forwards_prune_spec P init W Li) as (P1 & E1 & R1 & X1). rewrite E1. cbn [obind]. assert (L1 : 0 < pd_n P1) by (rewrite (rd_n _ _ R1); auto).
  destruct (backwards_prune_spec P1 0 (rd_wf _ _ R1) L1) as (P2 & E2 & R2 & X2). rewrite E2. cbn [obind]. assert (R12 : red P P2) by (eapply red_trans; eauto).
  assert (L2 : init < pd_n P2) by (rewrite (rd_n _ _ R12); auto). destruct (nth_error_ex _ _ _ L2) as [x Ex]. rewrite Ex. cbn [obind].
  assert (OK0 : app_ok P2 (repeat tos0 (pd_n P2)) []). { split; [apply repeat_length|]. split; [intros p; rewrite ent_repeat; apply wft_tos0|]. split; [intros q []|]. intros p Hf. rewrite ent_repeat in Hf. destruct Hf; discriminate. }
  assert (B0 : blank (repeat tos0 (pd_n P2)) []) by (intros p; right; rewrite ent_repeat; auto).
  assert (IX : incl (ps_rules x) (rules_at P2 init)) by (rewrite (nth_error_rules_at _ _ _ Ex); intros y; auto).
  destruct (init_rules_spec P2 init 0 (ps_rules x) _ _ (rd_wf _ _ R2) (init_push_red _ _ _ _ R12 HI) IX OK0 B0) as (app & w & Ei & O1 & B1 & K1 & _ & Lw).
  rewrite Ei. cbn [obind fst snd]. rewrite (nth_error_rules_at _ _ _ Ex) in K1. fold (is_ds aggr).
  assert (KR2 : keeps_runs 0 init P P2). { intros v ss c' HC Et HV _ HP. intros s Hs. refine (backwards_keeps P1 0 P2 _ _ _ (rd_wf _ _ R1) L1 E2 HC Et _ s Hs). exact (forwards_keeps P init P1 _ _ _ W Li E1 HC HP). }
  assert (CN : forall s v, pda_wrules P2 s v -> connected P init s).
  { intros s v Hs. apply (has_at P2 (s, v)) in Hs. destruct Hs as (r & ls & Hin & _ & Et & _). cbn [fst] in *. apply X2 in Hin. destruct Hin as [Hin G2]. apply X1 in Hin. destruct Hin as (_ & G1 & _). split; auto. rewrite Et. eapply greach_mono; [|exact G2]. intros p q. apply (rd_pres _ _ R1). }
  set (B := pd_n P + mu P). set (BS := length w + 2 * pd_nlab P * pd_n P).
  exists (B + (BS + B)). eapply within_bind; [eapply within_mono; [apply target_opt; apply R2| |intros y Hy; exact Hy]; rewrite (rd_n _ _ R12); assert (Z := red_mu _ _ R12); unfold B; lia|]. intros P3 (R3 & KR3 & _).
  assert (R13 : red P P3) by (eapply red_trans; eauto).
  eapply within_bind with (Q := fun app' => sat_inv P3 0 (is_ds aggr) app' [] /\ forall p, incl (t_tos (ent app p)) (t_tos (ent app' p))).
  { intros fuel. destruct (saturate_spec P3 0 (is_ds aggr) (rd_wf _ _ R3) fuel app w (sat_ready _ _ _ _ _ _ R3 O1 B1)) as [(app' & Es & H1 & H2)|[Es F]]; [left; eauto|right; split; auto].
    assert (Wb := weight_bound P3 app). rewrite (rd_nlab _ _ R13), (rd_n _ _ R13) in Wb. destruct O1 as [La _]. rewrite (rd_n _ _ R12) in La. specialize (Wb La). unfold BS. lia. }
  intros app' [SI GA]. destruct SI as [[La' [HW' HX]] HC']. assert (SI : sat_inv P3 0 (is_ds aggr) app' []) by (split; auto; split; auto).
  destruct (prune_all_spec P3 init app' (rd_wf _ _ R3) La' HW') as (P4 & E4 & R4 & KR4). rewrite E4. cbn [obind]. assert (R14 : red P P4) by (eapply red_trans; eauto). assert (L4 : 0 < pd_n P4) by (rewrite (rd_n _ _ R14); auto).
  destruct (backwards_prune_spec P4 0 (rd_wf _ _ R4) L4) as (P5 & E5 & R5 & _). rewrite E5. cbn [obind]. assert (R15 : red P P5) by (eapply red_trans; eauto).
  replace B with (B + 0) by lia. eapply within_bind; [eapply within_mono; [apply target_opt; apply R5| |intros y Hy; exact Hy]; rewrite (rd_n _ _ R15); assert (Z := red_mu _ _ R15); unfold B; lia|]. intros P6 (R6 & KR6 & ND).
  assert (R16 : red P P6) by (eapply red_trans; eauto). destruct (size_le P P6 init 0 R16 Li) as (a & b & Sa & Sb & Lab). rewrite Sb. cbn [obind]. apply within_done. cbn [fst snd]. split; auto. split; [congruence|]. split; auto. split; auto.
  split; [|split; auto; intros _ s v Hs; apply (CN s v); eapply (red_has P2 P6 (s, v)); [|exact Hs]; repeat (eapply red_trans; [eassumption|]); apply red_refl; apply R6].
  intros v ss c' HC Et HV HD HP. apply (KR6 (init, v) ss c'); auto. assert (H3 : all_has P3 ss) by (apply (KR3 (init, v) ss c'); auto; apply (KR2 v ss c'); auto; discriminate).
  intros s Hs. refine (backwards_keeps P4 0 P5 _ _ _ (rd_wf _ _ R4) L4 E5 HC Et _ s Hs). apply (KR4 (init, v) ss c'); auto.
  apply (run_keepable P3 init 0 (is_ds aggr) app' v ss c'); auto; [apply R3|eapply init_push_red; eauto|exact (seeded_red P2 P3 0 app app' init R3 K1 GA)].
Qed.

(** * Stores built by the API *)
Lemma add_urule_wfr : forall P u, wfr P -> wf_urule (pd_nlab P) u -> wfr (add_urule P u).
Proof.
  intros P u [W WL] U. constructor; [apply add_urule_wf; auto|]. rewrite add_urule_nlab. intros p r ls Hin. apply add_urule_In in Hin; [|apply W].
  destruct U as (U1 & U2 & U3).
  assert (M : forall old, lrep (pd_nlab P) old -> lrep (pd_nlab P) (merge old (u_wild u) (u_pre u))) by (intros old Ho; apply merge_spec; auto; apply label_vec_ssorted; split; auto).
  destruct Hin as [[_ H]|(_ & _ & [(old & H & ->)|[_ ->]])]; [eapply WL; eauto|apply M; eapply WL; eauto|apply M].
  split; [|discriminate]. apply label_vec_ssorted. split; [constructor|intros l []].
Qed.
Lemma empty_wfr : forall nlab, wfr (mk_pda [] nlab).
Proof. intros nlab. constructor; [apply empty_wf|]. intros p r ls H. unfold rules_at in H. cbn in H. destruct p; destruct H. Qed.
Lemma calls_wfr : forall nlab cs P, Forall (wf_call nlab) cs -> do_calls nlab cs = Some P -> wfr P /\ pd_nlab P = nlab.
Proof.
  intros nlab cs. induction cs as [|c cs IH] using rev_ind; intros P HF E.
  - injection E as <-. split; [apply empty_wfr|auto].
  - apply Forall_app in HF. destruct HF as [HF Hc]. inversion Hc as [|c0 l Hc0 _]; subst. unfold do_calls in E. rewrite ofold_app in E. apply obind_Some in E. destruct E as [P1 [E1 E2]].
    destruct (IH _ HF E1) as [W Hl]. destruct c as [u|s]; cbn in E2, Hc0.
    + injection E2 as <-. rewrite add_urule_nlab. split; auto. apply add_urule_wfr; auto. rewrite Hl. auto.
    + destruct (clear_state P1 s) as [P2|] eqn:E3; cbn in E2; [|discriminate]. injection E2 as <-. destruct (Nat.lt_ge_cases s (pd_n P1)) as [Ls|Ls].
      * destruct (clear_red P1 s W Ls) as (P3 & E4 & R & _). rewrite E3 in E4. injection E4 as <-. split; [apply R|]. rewrite (rd_nlab _ _ R). auto.
      * exfalso. unfold clear_state in E3. apply nth_error_None in Ls. unfold pd_n in *. rewrite Ls in E3. discriminate.
Qed.
Lemma build_wfr : forall nlab us, Forall (wf_urule nlab) us -> wfr (build nlab us) /\ pd_nlab (build nlab us) = nlab.
Proof.
  intros nlab us H. unfold build. assert (G : forall us P, wfr P -> Forall (wf_urule (pd_nlab P)) us -> wfr (fold_left add_urule us P) /\ pd_nlab (fold_left add_urule us P) = pd_nlab P).
  { induction us0 as [|u us0 IH]; intros P W HF; cbn; auto. inversion HF as [|? ? H1 H2]; subst. rewrite <- (add_urule_nlab P u). apply IH; [apply add_urule_wfr; auto|rewrite add_urule_nlab; auto]. }
  apply (G us (mk_pda [] nlab)); auto. apply empty_wfr.
Qed.


(** * The graph of a store in terms of its rules *)
Lemma labels_some : forall all ls, 0 < all -> labels_empty ls = false -> exists l, matches all ls l.
Proof.
  intros all ls H E. unfold labels_empty in E. unfold matches. destruct (wild ls); [exists 0; auto|]. destruct (labs ls) as [|l v]; [discriminate|]. exists l. cbn; auto.
Qed.
Lemma succ_edge_rule : forall P p q, wfr P -> 0 < pd_nlab P -> (succ_edge P p q <-> rule_edge (pda_wrules P) p q).
Proof.
  intros P p q W L. split.
  - intros (r & ls & Hin & Et & He). destruct (labels_some _ _ L He) as [l Hl]. exists (mk_srule p l q (sop_of r)), (r_w r). split; auto. apply (has_at P (_, _)). exists r, ls. cbn. auto.
  - intros (s & v & Hs & <- & <-). apply (has_edge P (s, v) W Hs).
Qed.
Lemma greach_rt : forall (N : nat -> nat -> Prop) p q, greach N p q <-> clos_refl_trans nat N p q.
Proof.
  intros N p q. split.
  - intros H. induction H as [q|q q1 q2 Hn G IH]; [apply rt_refl|]. eapply rt_trans; [apply rt_step; eauto|auto].
  - intros H. apply clos_rt_rt1n in H. induction H as [q|q q1 q2 Hn G IH]; [constructor|econstructor; eauto].
Qed.
Lemma greach_rev : forall (N M : nat -> nat -> Prop) p q, (forall a b, N a b <-> M b a) -> (greach N p q <-> clos_refl_trans nat M q p).
Proof.
  intros N M p q H. rewrite greach_rt. split; intros G.
  - induction G as [a b HG|a|a b c G1 I1 G2 I2]; [apply rt_step, H; auto|apply rt_refl|eapply rt_trans; eauto].
  - induction G as [a b HG|a|a b c G1 I1 G2 I2]; [apply rt_step, H; auto|apply rt_refl|eapply rt_trans; eauto].
Qed.
(** The edges of the calls, whether or not they have labels. *)
Definition call_edge (us : list urule) (p q : nat) : Prop := exists u, In u us /\ u_from u = p /\ r_to (u_rule u) = q.
Lemma build_back : forall nlab us p q, greach (pre_edge (build nlab us)) p q <-> clos_refl_trans nat (call_edge us) q p.
Proof. intros nlab us p q. apply greach_rev. intros a b. unfold pre_edge. rewrite build_pres. reflexivity. Qed.
Lemma chain_app : forall c ss1 c' ss2 c'', chain c ss1 c' -> chain c' ss2 c'' -> chain c (ss1 ++ ss2) c''.
Proof. intros c ss1 c' ss2 c'' H. induction H; intros G; auto. cbn. econstructor; eauto. Qed.
(** A run to [term] has a part that ends at the first visit. *)
Lemma first_part : forall term c ss c', chain c ss c' -> fst c' = term -> exists ss1 ss2 c1, ss = ss1 ++ ss2 /\ chain c ss1 c1 /\ fst c1 = term /\ first_visit term ss1.
Proof.
  intros term c ss c' H. induction H as [c|c s c' ss c'' HS HC IH]; intros E.
  - exists [], [], c. split; auto. split; [constructor|]. split; auto. intros s [].
  - destruct (Nat.eq_dec (fst c) term) as [Ec|Nc].
    + exists [], (s :: ss), c. split; auto. split; [constructor|]. split; auto. intros x [].
    + destruct (IH E) as (ss1 & ss2 & c1 & -> & H1 & H2 & H3). exists (s :: ss1), ss2, c1. split; auto. split; [econstructor; eauto|]. split; auto.
      intros x [<-|Hx]; auto. destruct (step_by_inv _ _ _ HS) as (w & -> & _). auto.
Qed.
