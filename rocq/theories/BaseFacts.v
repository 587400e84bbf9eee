(** Lemmas about the helpers of Base. *)
From Coq Require Import List Arith Lia Bool Sorted Permutation.
From Verif Require Import Base.
Import ListNotations.

Lemma obind_Some : forall A B (m : option A) (f : A -> option B) b,
  obind m f = Some b <-> exists a, m = Some a /\ f a = Some b.
Proof. intros; destruct m; cbn; split; intros H; eauto. destruct H as [x [H1 H2]]; congruence. discriminate. destruct H as [? [? ?]]; discriminate. Qed.

(** The main rule for loops: [I] is an invariant, [le] relates earlier and later states, [Q a] is established by the
    iteration for [a] and preserved along [le]. *)
Lemma ofold_rule : forall S A (f : S -> A -> option S) (I : S -> Prop) (le : S -> S -> Prop) (Q : A -> S -> Prop) (l : list A),
  (forall s, le s s) -> (forall s1 s2 s3, le s1 s2 -> le s2 s3 -> le s1 s3) ->
  (forall a s s', Q a s -> le s s' -> Q a s') ->
  (forall a s, In a l -> I s -> exists s', f s a = Some s' /\ I s' /\ le s s' /\ Q a s') ->
  forall s, I s -> exists s', ofold f l s = Some s' /\ I s' /\ le s s' /\ (forall a, In a l -> Q a s').
Proof.
  intros S A f I le Q l Hr Ht HQ. induction l as [|a l IH]; intros Hstep s Hs.
  - exists s; cbn; repeat split; auto. intros ? [].
  - destruct (Hstep a s (or_introl eq_refl) Hs) as [s1 [E1 [I1 [L1 Q1]]]].
    destruct (IH (fun a0 s0 Hin => Hstep a0 s0 (or_intror Hin)) s1 I1) as [s2 [E2 [I2 [L2 Q2]]]].
    exists s2. cbn. rewrite E1; cbn. repeat split; eauto.
    intros a' [->|Hin]; eauto.
Qed.

Lemma enum_from_In : forall A (l : list A) i k a, In (k, a) (enum_from i l) <-> exists j, k = i + j /\ nth_error l j = Some a.
Proof.
  induction l as [|x l IH]; intros i k a; cbn.
  - split; [tauto|]. intros [j [_ H]]. destruct j; discriminate.
  - rewrite IH. split.
    + intros [H|[j [-> H]]].
      * injection H as <- <-. exists 0; split; auto; lia.
      * exists (S j); split; auto; lia.
    + intros [[|j] [-> H]]; cbn in H.
      * left. injection H as ->. f_equal; lia.
      * right. exists j; split; auto; lia.
Qed.

Lemma enum_In : forall A (l : list A) k a, In (k, a) (enum l) <-> nth_error l k = Some a.
Proof.
  intros. unfold enum. rewrite enum_from_In. cbn. split.
  - intros [j [-> H]]; auto.
  - intros H; exists k; auto.
Qed.

Lemma take_while_In : forall A (f : A -> bool) l a, In a (take_while f l) -> In a l /\ f a = true.
Proof.
  induction l as [|x l IH]; cbn; [tauto|]. intros a H. destruct (f x) eqn:E; cbn in H; [|tauto].
  destruct H as [->|H]; auto. destruct (IH _ H); auto.
Qed.

Lemma drop_while_In : forall A (f : A -> bool) l a, In a (drop_while f l) -> In a l.
Proof. induction l as [|x l IH]; cbn; auto. intros a H. destruct (f x); auto. Qed.

Lemma drop_while_keep : forall A (f : A -> bool) l a, In a l -> f a = false -> In a (drop_while f l).
Proof.
  induction l as [|x l IH]; cbn; auto. intros a [->|H] E.
  - rewrite E; cbn; auto.
  - destruct (f x); cbn; auto.
Qed.

Lemma upd_length : forall A (l : list A) i x, length (upd l i x) = length l.
Proof. induction l; destruct i; cbn; auto. Qed.

Lemma nth_error_upd_eq : forall A (l : list A) i x, i < length l -> nth_error (upd l i x) i = Some x.
Proof. induction l; destruct i; cbn; intros; try lia; auto. apply IHl; lia. Qed.

Lemma nth_error_upd_neq : forall A (l : list A) i j x, i <> j -> nth_error (upd l i x) j = nth_error l j.
Proof. induction l; destruct i, j; cbn; intros; try lia; auto. Qed.

Lemma memb_In : forall x l, memb x l = true <-> In x l.
Proof.
  induction l; cbn; [split; [discriminate|tauto]|].
  rewrite orb_true_iff, IHl, Nat.eqb_eq. split; intros [?|?]; auto.
Qed.

Lemma nth_error_nth' : forall A (l : list A) i d, i < length l -> nth_error l i = Some (nth i l d).
Proof. intros. apply nth_error_nth'; auto. Qed.

Lemma nth_error_lt : forall A (l : list A) i a, nth_error l i = Some a -> i < length l.
Proof. intros. apply nth_error_Some. congruence. Qed.

Lemma nth_error_ex : forall A (l : list A) i, i < length l -> exists a, nth_error l i = Some a.
Proof. intros. destruct (nth_error l i) eqn:E; eauto. apply nth_error_None in E. lia. Qed.

(** Split conjunctions only (not records). *)
Ltac ands := repeat match goal with |- _ /\ _ => split end.

Lemma filter_length_le' : forall A (f : A -> bool) l, length (filter f l) <= length l.
Proof. induction l as [|a l IH]; cbn; auto. destruct (f a); cbn; lia. Qed.

(** A loop with early return: every iteration either returns something good or keeps the invariant and establishes [Q]. *)
Lemma eloop_rule : forall S A R (f : S -> A -> option (S + R)) (Inv : S -> Prop) (le : S -> S -> Prop) (Q : A -> S -> Prop) (G : R -> Prop),
  (forall s, le s s) -> (forall a b c, le a b -> le b c -> le a c) -> (forall x s s', Inv s -> le s s' -> Q x s -> Q x s') ->
  forall l, (forall s x, In x l -> Inv s -> exists r, f s x = Some r /\ match r with inr y => G y | inl s' => Inv s' /\ le s s' /\ Q x s' end) ->
  forall s, Inv s -> exists r, eloop f l s = Some r /\ match r with inr y => G y | inl s' => Inv s' /\ le s s' /\ forall x, In x l -> Q x s' end.
Proof.
  intros S A R f Inv le Q G Hr Ht Hm l. induction l as [|a l IH]; intros Hf s Hs; cbn [eloop].
  - exists (inl s). ands; auto. intros x [].
  - destruct (Hf s a (or_introl eq_refl) Hs) as [[s1|r] [E H]]; rewrite E.
    + destruct H as [H1 [H2 H3]]. destruct (IH (fun s x Hx => Hf s x (or_intror Hx)) s1 H1) as [[s2|r] [E2 K]]; [exists (inl s2)|exists (inr r); auto]. split; auto.
      destruct K as [K1 [K2 K3]]. ands; eauto. intros x [<-|Hx]; eauto.
    + exists (inr r). auto.
Qed.

Lemma nth_error_app1_some : forall A (l k : list A) i x, nth_error l i = Some x -> nth_error (l ++ k) i = Some x.
Proof. intros A l k i x H. rewrite nth_error_app1; auto. eapply nth_error_lt; eauto. Qed.
Lemma NoDup_app_snoc : forall A (l : list A) x, NoDup l -> ~ In x l -> NoDup (l ++ [x]).
Proof.
  induction l as [|a l IH]; intros x H Hn; cbn. { repeat constructor; auto. } inversion H; subst. constructor.
  - intros K. apply in_app_or in K. destruct K as [K|[->|[]]]; auto. apply Hn; left; auto.
  - apply IH; auto. intros K; apply Hn; right; auto.
Qed.
